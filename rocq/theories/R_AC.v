(** ac_simp and aci_simp, checker/rules/simplification.rs:680-886. *)
From Coq Require Import List String ZArith QArith Bool Arith Lia Permutation.
From Verif Require Import Term Field Sem Sorting Base Rules R_Taut Utils Num R_Resolution R_Simp PolyeqSound Refute.
Import ListNotations.
Local Open Scope nat_scope.

(** ** apply_ac_simp, simplification.rs:682-733.  The cache is keyed on the term and the function depends
    on nothing else, so it is left out; [Term::ParamOp], constants, variables and sorts are returned
    unchanged, as is the function of an application and the values bound by a [let]. *)
Definition is_ao (o : op) : bool := op_eqb o OAnd || op_eqb o OOr.
Definition unnest (o : op) (t : term) : list term := match as_op o t with Some l => l | None => [t] end.
Definition rebuild (o : op) (l : list term) : term := match l with [x] => x | _ => TOp o l end.
Fixpoint ac (t : term) : term :=
  match t with
  | TOp o args => if is_ao o then rebuild o (dedup (flat_map (fun a => unnest o (ac a)) args)) else TOp o (map ac args)
  | TApp f args => TApp f (map ac args)
  | TBind b vs body => TBind b vs (ac body)
  | TLet bs body => TLet bs (ac body)
  | _ => t
  end.
(** simplification.rs:735-742 *)
Definition r_ac_simp : rule := fun c _ _ =>
  len_is c 1 ;;
  do c0 <- idx c 0 ;
  do lr <- m_op2 OEquals c0 ;
  let '(original, flattened) := lr in
  rassert (term_eqb flattened (ac original)).

Lemma wt_op_args o l : wt (TOp o l) = true -> forallb wt l = true /\ op_wt o (map sort_of l) = true.
Proof. cbn [wt]. apply andb_true_iff. Qed.
Lemma wt_op_sort o l : wt (TOp o l) = true -> sort_of (TOp o l) = op_sort o (map sort_of l).
Proof. intros H. apply wt_op_args in H. apply sort_of_op. intros ->. destruct H. discriminate. Qed.
Lemma ao_wt o l : is_ao o = true -> (wt (TOp o l) = true <-> l <> [] /\ forallb bool_term l = true).
Proof.
  intros Ho. assert (Hw : op_wt o (map sort_of l) = min_len 1 (map sort_of l) && forallb (sort_eqb SBool) (map sort_of l)).
  { unfold is_ao in Ho. apply orb_true_iff in Ho. rewrite !op_eqb_eq in Ho. destruct Ho; subst; reflexivity. }
  cbn [wt]. rewrite Hw. unfold bool_term. clear.
  rewrite !andb_true_iff, !forallb_forall. unfold min_len. rewrite Nat.leb_le, map_length. split.
  - intros [H1 [H2 H3]]. split; [destruct l; simpl in *; [lia|discriminate]|].
    intros x Hx. rewrite H1 by auto. rewrite sort_eqb_sym. apply H3, in_map, Hx.
  - intros [H1 H2]. split; [|split].
    + intros x Hx. apply H2 in Hx. apply andb_true_iff in Hx. tauto.
    + destruct l; simpl; [congruence|lia].
    + intros s Hs. apply in_map_iff in Hs. destruct Hs as [x [<- Hx]]. apply H2 in Hx. apply andb_true_iff in Hx.
      rewrite sort_eqb_sym. tauto.
Qed.
Lemma ao_sort o l : is_ao o = true -> sort_of (TOp o l) = SBool.
Proof. unfold is_ao. intros Ho. apply orb_true_iff in Ho. rewrite !op_eqb_eq in Ho. destruct Ho; subst; reflexivity. Qed.
Lemma ao_bt o l : is_ao o = true -> (bool_term (TOp o l) = true <-> l <> [] /\ forallb bool_term l = true).
Proof. intros Ho. rewrite <- (ao_wt o l Ho). unfold bool_term at 1. rewrite (ao_sort o l Ho), andb_true_iff, sort_eqb_refl. tauto. Qed.
Lemma unnest_bt o t : is_ao o = true -> bool_term t = true -> unnest o t <> [] /\ forallb bool_term (unnest o t) = true.
Proof.
  intros Ho Ht. unfold unnest. destruct (as_op o t) as [l|] eqn:E.
  - apply as_op_some in E. subst. apply ao_bt in Ht; auto.
  - split; [discriminate|]. simpl. rewrite Ht. reflexivity.
Qed.
Lemma dedup_nil l : dedup l = [] -> l = [].
Proof. intros H. destruct l as [|x r]; auto. assert (K : In x (dedup (x :: r))) by (apply dedup_In; simpl; auto). rewrite H in K. destruct K. Qed.
Lemma rebuild_bt o l : is_ao o = true -> l <> [] -> forallb bool_term l = true -> bool_term (rebuild o l) = true.
Proof.
  intros Ho H1 H2. unfold rebuild. destruct l as [|x [|y r]]; [congruence|simpl in H2; rewrite andb_true_r in H2; auto|].
  apply ao_bt; auto.
Qed.

Section ACSound.
  Context {I : interp}.
  Lemma ao_holds (E : env I) o l : is_ao o = true -> holds E (TOp o l) = fold_ao E (op_eqb o OAnd) l.
  Proof.
    unfold is_ao. intros Ho. apply orb_true_iff in Ho. rewrite !op_eqb_eq in Ho. destruct Ho; subst; simpl.
    - apply (fold_ao_op E true). - apply (fold_ao_op E false).
  Qed.
  Lemma fold_ao_flat (E : env I) s (f : term -> list term) l : (forall a, In a l -> fold_ao E s (f a) = holds E a) ->
    fold_ao E s (flat_map f l) = fold_ao E s l.
  Proof.
    induction l as [|a r IH]; intros H; [reflexivity|].
    simpl flat_map. unfold fold_ao in *. destruct s.
    - rewrite forallb_app. cbn [forallb]. rewrite IH by (intros; apply H; simpl; auto). rewrite H by (simpl; auto). reflexivity.
    - rewrite existsb_app. cbn [existsb]. rewrite IH by (intros; apply H; simpl; auto). rewrite H by (simpl; auto). reflexivity.
  Qed.
  Lemma unnest_ao (E : env I) o t : is_ao o = true -> fold_ao E (op_eqb o OAnd) (unnest o t) = holds E t.
  Proof.
    intros Ho. unfold unnest. destruct (as_op o t) as [l|] eqn:Eo.
    - apply as_op_some in Eo. subst. symmetry. apply ao_holds; auto.
    - apply fold_ao_1.
  Qed.
  Lemma rebuild_ao (E : env I) o l : is_ao o = true -> holds E (rebuild o l) = fold_ao E (op_eqb o OAnd) l.
  Proof.
    intros Ho. unfold rebuild. destruct l as [|x [|y r]]; try (apply ao_holds; auto). symmetry. apply fold_ao_1.
  Qed.
  Lemma ac_sound t : wt t = true -> wt (ac t) = true /\ sort_of (ac t) = sort_of t /\
    forall E : env I, env_ok E -> eval (ac t) E = eval t E.
  Proof.
    induction t using term_ind'; intros Hw; cbn [ac]; auto.
    - (* application *)
      cbn [wt] in Hw. rewrite !andb_true_iff in Hw. destruct Hw as [[W1 W2] W3]. rewrite forallb_forall in W2. rewrite Forall_forall in H.
      assert (Hs : map sort_of (map ac args) = map sort_of args).
      { rewrite map_map. apply map_ext_in. intros a Ha. apply H; auto. }
      split; [|split; [reflexivity|]].
      + cbn [wt]. rewrite W1, Hs, W3, andb_true_r. apply forallb_forall. intros x Hx. apply in_map_iff in Hx.
        destruct Hx as [a [<- Ha]]. apply H; auto.
      + intros E HE. cbn [eval]. f_equal. rewrite map_map. apply map_ext_in. intros a Ha. apply H; auto.
    - (* operator *)
      rewrite Forall_forall in H. destruct (is_ao o) eqn:Ho.
      + pose proof Hw as Hw'. apply ao_wt in Hw'; auto. destruct Hw' as [Hn Ha]. rewrite forallb_forall in Ha.
        set (l := flat_map (fun a => unnest o (ac a)) args).
        assert (Ba : forall a, In a args -> bool_term (ac a) = true).
        { intros a Hin. specialize (Ha a Hin). unfold bool_term in *. rewrite andb_true_iff in *. destruct Ha as [Hwa Hsa].
          destruct (H a Hin Hwa) as [K1 [K2 _]]. rewrite K2. auto. }
        assert (Hl : forallb bool_term l = true).
        { apply forallb_forall. intros x Hx. unfold l in Hx. apply in_flat_map in Hx. destruct Hx as [a [Hin Hx]].
          destruct (unnest_bt o (ac a) Ho (Ba a Hin)) as [_ K]. rewrite forallb_forall in K. auto. }
        assert (Hne : l <> []).
        { destruct args as [|a r]; [congruence|]. unfold l. simpl. destruct (unnest_bt o (ac a) Ho (Ba a (or_introl eq_refl))) as [K _].
          destruct (unnest o (ac a)); [congruence|discriminate]. }
        assert (Hb : bool_term (rebuild o (dedup l)) = true).
        { apply rebuild_bt; auto. - intros K. apply dedup_nil in K. auto.
          - rewrite forallb_forall in *. intros x Hx. apply Hl. apply dedup_In, Hx. }
        assert (Hb' : bool_term (TOp o args) = true). { apply ao_bt; auto. rewrite forallb_forall. auto. }
        split; [apply bool_term_wt, Hb|]. split.
        { rewrite (ao_sort o args Ho). apply andb_true_iff in Hb. apply sort_eqb_eq. tauto. }
        intros E HE. rewrite (eval_bool _ E Hb HE), (eval_bool _ E Hb' HE). f_equal.
        rewrite rebuild_ao, ao_holds by auto. rewrite fold_ao_dedup. unfold l. apply fold_ao_flat.
        intros a Hin. rewrite unnest_ao by auto. unfold holds. f_equal. apply H; auto.
        specialize (Ha a Hin). apply bool_term_wt; auto.
      + pose proof (wt_op_args _ _ Hw) as [W1 W2]. rewrite forallb_forall in W1.
        assert (Hs : map sort_of (map ac args) = map sort_of args).
        { rewrite map_map. apply map_ext_in. intros a Ha. apply H; auto. }
        assert (W : wt (TOp o (map ac args)) = true).
        { cbn [wt]. rewrite Hs, W2, andb_true_r. apply forallb_forall. intros x Hx. apply in_map_iff in Hx.
          destruct Hx as [a [<- Ha]]. apply H; auto. }
        split; [exact W|]. split.
        { rewrite !wt_op_sort by auto. rewrite Hs. reflexivity. }
        intros E HE. cbn [eval]. f_equal. rewrite map_map. apply map_ext_in. intros a Ha. apply H; auto.
    - (* binder *)
      cbn [wt] in Hw. rewrite !andb_true_iff in Hw. destruct Hw as [[W1 W2] W3].
      destruct (IHt W1) as [K1 [K2 K3]].
      split; [|split].
      + cbn [wt]. rewrite K1, W2, K2. exact W3.
      + cbn [sort_of]. rewrite K2. reflexivity.
      + intros E HE. cbn [eval]. rewrite K2. destruct b; cbn [eval_bind].
        * f_equal. apply eval_all_ext; auto. intros vals Hd.  rewrite K3; auto. apply env_ok_upds; auto.
        * f_equal. f_equal. apply eval_all_ext; auto. intros vals Hd. rewrite K3; auto. apply env_ok_upds; auto.
        * destruct vs as [|[x s] [|? ?]]; try (apply ilam_ext; intros vals Hd; apply K3, env_ok_upds; auto).
          apply ichoice_ext. intros v Hv. f_equal. apply K3. apply env_ok_upd; auto.
        * apply ilam_ext. intros vals Hd. apply K3, env_ok_upds; auto.
    - (* let *)
      cbn [wt] in Hw. rewrite !andb_true_iff in Hw. destruct Hw as [W1 W2].
      destruct (IHt W2) as [K1 [K2 K3]].
      split; [|split].
      + cbn [wt]. rewrite K1, W1. reflexivity.
      + cbn [sort_of]. exact K2.
      + intros E HE. cbn [eval]. apply K3. apply env_ok_upds; auto. rewrite map_map. cbn [snd].
        rewrite forallb_forall in W1. clear - W1 HE. induction bs as [|p r IH]; simpl; constructor.
        * apply eval_dom; auto. apply W1; simpl; auto. * apply IH. intros x Hx. apply W1; simpl; auto.
  Qed.
End ACSound.
Theorem r_ac_simp_sound : rule_sound r_ac_simp.
Proof.
  intros c ps args H Hw _ I E HE _. unfold r_ac_simp in H. rinv.
  unfold clause_wt in Hw. simpl in Hw. rewrite andb_true_r in Hw. apply bool_term_wt, eq_args_wt in Hw. destruct Hw as [W1 [W2 _]].
  apply clause_holds_b. simpl. rewrite orb_false_r. apply holds_eq_iff.
  repeat match goal with H : term_eqb _ _ = true |- _ => apply term_eqb_eq in H end. subst.
  symmetry. apply ac_sound; auto.
Qed.

(** ** aci_simp *)
(** simplification.rs:745-760 *)
Definition is_assoc (o : op) : bool :=
  existsb (op_eqb o) [OAnd; OOr; OAdd; OMult; OBvAdd; OBvOr; OBvMul; OBvAnd; OBvXor; OBvConcat].
(** identity_of_op, simplification.rs:765-817; [args] are the arguments of the term *)
Definition first_sort (args : list term) : outcome sort := match args with a :: _ => ROk (sort_of a) | [] => RPanic end.
Definition num_identity (z : Z) (args : list term) : outcome (option term) :=
  do s <- first_sort args ;
  match s with SInt => ROk (Some (tInt z)) | SReal => ROk (Some (tReal (inject_Z z))) | _ => RPanic end.
Definition bv_identity (v : nat -> Z) (args : list term) : outcome (option term) :=
  do s <- first_sort args ;
  match s with SBV w => ROk (Some (TConst (CBV (v w) w))) | _ => RPanic end.
Definition identity_of_op (o : op) (args : list term) : outcome (option term) :=
  if op_eqb o OOr then ROk (Some tFalse)
  else if op_eqb o OAnd then ROk (Some tTrue)
  else if op_eqb o OAdd then num_identity 0 args
  else if op_eqb o OMult then num_identity 1 args
  else if op_eqb o OBvAdd || op_eqb o OBvOr || op_eqb o OBvXor then bv_identity (fun _ => 0%Z) args
  else if op_eqb o OBvMul then bv_identity (fun _ => 1%Z) args
  else if op_eqb o OBvAnd then bv_identity (fun w => 2 ^ Z.of_nat w - 1)%Z args
  else ROk None.
(** apply_aci_simp, simplification.rs:848-886, with its cache: the same cache serves both sides of the
    equality, whose operators may differ *)
Definition acache := list (term * term).
Definition keep (id : option term) (t : term) : bool := match id with None => true | Some i => negb (term_eqb t i) end.
Fixpoint aci (o : op) (id : option term) (t : term) (c : acache) {struct t} : term * acache :=
  if negb (is_assoc o) then (t, c)
  else match im_get term_eqb c t with
  | Some r => (r, c)
  | None =>
      match t with
      | TOp o' args =>
          if op_eqb o' o then
            let '(l, c') :=
              (fix go (args : list term) (c : acache) : list term * acache :=
                 match args with
                 | [] => ([], c)
                 | a :: rest =>
                     let '(a', c1) := aci o id a c in
                     let '(l, c2) := go rest c1 in
                     (unnest o a' ++ l, c2)
                 end) args c in
            let r := rebuild o (filter (keep id) (dedup l)) in
            (r, im_insert term_eqb c' t r)
          else (t, im_insert term_eqb c t t)
      | _ => (t, im_insert term_eqb c t t)
      end
  end.
Definition aci_side (t : term) (c : acache) : outcome (term * acache) :=
  match t with
  | TOp o args => do id <- identity_of_op o args ; ROk (aci o id t c)
  | _ => ROk (t, c)
  end.
(** simplification.rs:819-846 *)
Definition aci_compare (a b : term) : bool :=
  match a, b with
  | TOp o1 l1, TOp o2 l2 =>
      if is_assoc o1 && negb (op_eqb o1 OBvConcat) && op_eqb o1 o2 then ms_eqb term_eqb (ms_of term_eqb l1) (ms_of term_eqb l2)
      else term_eqb a b
  | _, _ => term_eqb a b
  end.
Definition r_aci_simp : rule := fun c _ _ =>
  len_is c 1 ;;
  do c0 <- idx c 0 ;
  do lr <- m_op2 OEquals c0 ;
  let '(t1, t2) := lr in
  do r1 <- aci_side t1 [] ;
  let '(t11, cache) := r1 in
  do r2 <- aci_side t2 cache ;
  let '(t22, _) := r2 in
  rassert (aci_compare t11 t22).

Example aci_ex1 : r_aci_simp [tEq (TOp OOr [TOp OOr [TVar "p" SBool; TVar "q" SBool]; tFalse; TVar "p" SBool])
                                  (TOp OOr [TVar "q" SBool; TVar "p" SBool])] [] [] = ROk tt.
Proof. vm_compute. reflexivity. Qed.
Lemma aci_simp_refuted : rule_refuted r_aci_simp.
Proof.
  exists [tEq (TOp OAdd [TVar "x" SInt; TVar "x" SInt]) (TVar "x" SInt)], [], [].
  split; [vm_compute; reflexivity|]. split; [vm_compute; reflexivity|]. split; [vm_compute; reflexivity|]. intros I.
  destruct (env_with (I := I) "x" SInt (vint 1)) as [E [HE Hx]]; [apply dom_int; eauto|].
  exists E. split; auto. split; [intros p []|]. apply not_clause_b. cbn [existsb]. rewrite orb_false_r, holds_eq.
  cbn [eval map eval_op fold_left]. rewrite Hx. cbn [num].
  change (oeqb (oadd (oadd (inj 0) (inj 1)) (inj 1)) (inj 1 : iF I) = false).
  rewrite <- !inj_add, inj_eqb. reflexivity.
Qed.
Lemma aci_concat_refuted : let x := TVar "x" (SBV 1) in let y := TVar "y" (SBV 1) in
  exists c, c = [tEq (TOp OBvConcat [x; x; y]) (TOp OBvConcat [x; y; y])] /\ r_aci_simp c [] [] = ROk tt /\ clause_wt c = true /\
  forall I : interp, exists E : env I, env_ok E /\ ~ clause_holds E c.
Proof.
  eexists. split; [reflexivity|]. split; [vm_compute; reflexivity|]. split; [vm_compute; reflexivity|]. intros I.
  destruct (env_with2 (I := I) "x" (SBV 1) (VBV 1 0) "y" (SBV 1) (VBV 1 1)) as [E [HE [Hx Hy]]]; [reflexivity|reflexivity|discriminate|].
  exists E. split; auto. apply not_clause_b. cbn [existsb]. rewrite orb_false_r, holds_eq.
  cbn [eval map eval_op fold_left fold1]. rewrite Hx, Hy. reflexivity.
Qed.

Fixpoint aci_list (o : op) (id : option term) (args : list term) (c : acache) : list term * acache :=
  match args with
  | [] => ([], c)
  | a :: rest =>
      let '(a', c1) := aci o id a c in
      let '(l, c2) := aci_list o id rest c1 in
      (unnest o a' ++ l, c2)
  end.
Lemma aci_op o id o' args c : aci o id (TOp o' args) c =
  if negb (is_assoc o) then (TOp o' args, c)
  else match im_get term_eqb c (TOp o' args) with
  | Some r => (r, c)
  | None => if op_eqb o' o then
            let '(l, c') := aci_list o id args c in
            let r := rebuild o (filter (keep id) (dedup l)) in
            (r, im_insert term_eqb c' (TOp o' args) r)
          else (TOp o' args, im_insert term_eqb c (TOp o' args) (TOp o' args))
  end.
Proof. 
  assert (K : forall args c, (fix go (args : list term) (c : acache) : list term * acache :=
                 match args with
                 | [] => ([], c)
                 | a :: rest =>
                     let '(a', c1) := aci o id a c in
                     let '(l, c2) := go rest c1 in
                     (unnest o a' ++ l, c2)
                 end) args c = aci_list o id args c).
  { clear. induction args as [|a r IH]; intros c; [reflexivity|]. simpl. destruct (aci o id a c). rewrite IH. reflexivity. }
  cbn [aci]. rewrite K. reflexivity.
Qed.

Section ACI.
  Context {I : interp} (E : env I) (HE : env_ok E).
  (** the operators [C] of one sort, each a commutative monoid on [D]; those in [Idem] are idempotent *)
  Variables (C Idem : op -> bool) (S : sort -> bool) (D : value I -> Prop).
  Variables (f : op -> value I -> value I -> value I) (e : op -> value I).
  Hypothesis HD : forall s v, S s = true -> idom I s v = true -> D v.
  Hypothesis Hf : forall o a b, C o = true -> D a -> D b -> D (f o a b).
  Hypothesis He : forall o, C o = true -> D (e o).
  Hypothesis Hassoc : forall o a b c, C o = true -> D a -> D b -> D c -> f o a (f o b c) = f o (f o a b) c.
  Hypothesis Hcomm : forall o a b, C o = true -> D a -> D b -> f o a b = f o b a.
  Hypothesis Hid : forall o a, C o = true -> D a -> f o (e o) a = a.
  Hypothesis Hidem : forall o a, C o = true -> Idem o = true -> D a -> f o a a = a.
  Definition den (o : op) (vs : list (value I)) : value I := fold_right (f o) (e o) vs.
  Hypothesis Heval : forall o l, C o = true -> wt (TOp o l) = true -> S (sort_of (TOp o l)) = true ->
    Forall D (map (fun a => eval a E) l) -> eval (TOp o l) E = den o (map (fun a => eval a E) l).
  Hypothesis Hargs : forall o l, C o = true -> wt (TOp o l) = true -> S (sort_of (TOp o l)) = true ->
    forall a, In a l -> S (sort_of a) = true.

  Hypothesis Hcls : forall o l, is_assoc o = true -> op_eqb o OBvConcat = false -> wt (TOp o l) = true ->
    S (sort_of (TOp o l)) = true -> C o = true.

  Fixpoint V (t : term) : value I :=
    match t with TOp o l => if C o then den o (map V l) else eval t E | _ => eval t E end.
  Definition leaf (t : term) : Prop := D (eval t E) /\ wt t = true /\ S (sort_of t) = true.
  Fixpoint DV (t : term) : Prop :=
    match t with
    | TOp o l => if C o then (fix all (l : list term) : Prop := match l with [] => True | a :: r => DV a /\ all r end) l
                 else leaf t
    | _ => leaf t
    end.
  Lemma DV_op o l : C o = true -> (DV (TOp o l) <-> Forall DV l).
  Proof.
    intros Ho. cbn [DV]. rewrite Ho. induction l as [|a r IH]; simpl.
    - split; auto.
    - rewrite IH. split; [intros [H1 H2]; auto|intros H; inversion H; auto].
  Qed.
  Lemma den_D o vs : C o = true -> Forall D vs -> D (den o vs).
  Proof. intros Ho. induction 1; simpl; auto. Qed.
  Lemma den_app o l m : C o = true -> Forall D l -> Forall D m -> den o (l ++ m) = f o (den o l) (den o m).
  Proof.
    intros Ho Hl Hm. induction Hl; simpl.
    - symmetry. apply Hid; auto. apply den_D; auto.
    - rewrite IHHl. apply Hassoc; auto; apply den_D; auto.
  Qed.
  Lemma den_perm o l m : C o = true -> Forall D l -> Permutation l m -> den o l = den o m.
  Proof.
    intros Ho Hl HP. induction HP; simpl; auto.
    - rewrite IHHP; auto. inversion Hl; auto.
    - inversion Hl as [|? ? D1 Hl']; subst. inversion Hl' as [|? ? D2 Hl'']; subst.
      pose proof (den_D o l Ho Hl''). rewrite !Hassoc by auto. f_equal. apply Hcomm; auto.
    - rewrite IHHP1, IHHP2; auto. eapply Permutation_Forall; eauto.
  Qed.
  (** membership is all that matters *)
  Lemma den_absorb o l v : C o = true -> Idem o = true -> Forall D l -> In v l -> f o v (den o l) = den o l.
  Proof.
    intros Ho Hid' Hl. induction Hl as [|a r Da Dr IH]; intros Hin; [destruct Hin|].
    pose proof (den_D o r Ho Dr) as Dd. simpl. destruct Hin as [<-|Hin].
    - rewrite Hassoc by auto. rewrite Hidem; auto.
    - assert (Dv : D v) by (rewrite Forall_forall in Dr; auto).
      rewrite Hassoc by auto. rewrite (Hcomm o v a) by auto. rewrite <- Hassoc by auto. rewrite IH; auto.
  Qed.
  Lemma den_sub o l m : C o = true -> Idem o = true -> Forall D m -> incl l m -> f o (den o l) (den o m) = den o m.
  Proof.
    intros Ho Hid' Hm. induction l as [|a r IH]; intros Hi.
    - apply Hid; auto. apply den_D; auto.
    - assert (Da : D a) by (rewrite Forall_forall in Hm; apply Hm, Hi; simpl; auto).
      assert (Dr : Forall D r). { rewrite Forall_forall in *. intros x Hx. apply Hm, Hi. simpl; auto. }
      pose proof (den_D o r Ho Dr). pose proof (den_D o m Ho Hm).
      simpl. rewrite <- Hassoc by auto. rewrite IH by (intros x Hx; apply Hi; simpl; auto).
      apply den_absorb; auto. apply Hi; simpl; auto.
  Qed.
  Lemma den_same o l m : C o = true -> Idem o = true -> Forall D l -> Forall D m -> incl l m -> incl m l -> den o l = den o m.
  Proof.
    intros Ho Hid' Hl Hm H1 H2. rewrite <- (den_sub o m l Ho Hid' Hl H2). rewrite Hcomm by (auto; apply den_D; auto). apply den_sub; auto.
  Qed.
  Lemma DV_D t : DV t -> D (V t).
  Proof.
    induction t using term_ind'; try (intros [K _]; exact K). cbn [V]. destruct (C o) eqn:Ho.
    - rewrite DV_op by auto. intros HF. apply den_D; auto. rewrite Forall_forall in *. intros v Hv. apply in_map_iff in Hv.
      destruct Hv as [a [<- Ha]]. auto.
    - cbn [DV]. rewrite Ho. intros [K _]. exact K.
  Qed.
  Lemma DV_map l : Forall DV l -> Forall D (map V l).
  Proof. intros H. rewrite Forall_forall in *. intros v Hv. apply in_map_iff in Hv. destruct Hv as [a [<- Ha]]. apply DV_D; auto. Qed.
  Lemma wt_V t : wt t = true -> S (sort_of t) = true -> V t = eval t E /\ DV t.
  Proof.
    assert (K : forall t, wt t = true -> S (sort_of t) = true -> D (eval t E)).
    { intros u Hw Hs. eapply HD; eauto. apply eval_dom; auto. }
    induction t using term_ind'; intros Hw Hs; try (split; [reflexivity|split; [apply (K _ Hw Hs)|auto]]).
    cbn [V]. destruct (C o) eqn:Ho.
    - pose proof (wt_op_args _ _ Hw) as [Wa _]. rewrite forallb_forall in Wa. rewrite Forall_forall in H.
      pose proof (Hargs o args Ho Hw Hs) as Ha.
      assert (Em : map V args = map (fun a => eval a E) args).
      { apply map_ext_in. intros a Hin. apply H; auto. }
      split.
      + rewrite Em. symmetry. apply Heval; auto. rewrite Forall_forall. intros v Hv. apply in_map_iff in Hv.
        destruct Hv as [a [<- Hin]]. apply K; auto.
      + apply DV_op; auto. rewrite Forall_forall. intros a Hin. apply H; auto.
    - split; [reflexivity|]. cbn [DV]. rewrite Ho. split; [apply (K _ Hw Hs)|auto].
  Qed.
  Lemma unnest_V o r : C o = true -> DV r -> Forall DV (unnest o r) /\ den o (map V (unnest o r)) = V r.
  Proof.
    intros Ho Hr. unfold unnest. destruct (as_op o r) as [l|] eqn:Eo.
    - apply as_op_some in Eo. subst. split; [apply (DV_op o l Ho); auto|]. cbn [V]. rewrite Ho. reflexivity.
    - split; auto. simpl. pose proof (DV_D r Hr). rewrite Hcomm by auto. apply Hid; auto.
  Qed.
  Lemma rebuild_V o l : C o = true -> Forall DV l -> DV (rebuild o l) /\ V (rebuild o l) = den o (map V l).
  Proof.
    intros Ho Hl. unfold rebuild.
    assert (G : DV (TOp o l) /\ V (TOp o l) = den o (map V l)).
    { split; [apply (DV_op o l Ho); auto|]. cbn [V]. rewrite Ho. reflexivity. }
    destruct l as [|x [|y r]]; auto. apply Forall_inv in Hl. split; auto. simpl.
    pose proof (DV_D x Hl). rewrite Hcomm by auto. symmetry. apply Hid; auto.
  Qed.
  Definition Inv (c : acache) : Prop := forall t r, im_get term_eqb c t = Some r -> wt t = true -> S (sort_of t) = true ->
    V r = eval t E /\ DV r.
  Lemma Inv_insert c t r : Inv c -> (wt t = true -> S (sort_of t) = true -> V r = eval t E /\ DV r) -> Inv (im_insert term_eqb c t r).
  Proof.
    intros Hc Hr t' r' Hg. rewrite (im_get_insert term_eqb term_eqb_eq) in Hg.
    destruct (term_eqb t' t) eqn:Et; [apply term_eqb_eq in Et; subst; injection Hg as <-; auto|apply Hc; auto].
  Qed.
  Lemma Inv_wt c t : Inv c -> Inv (im_insert term_eqb c t t).
  Proof. intros Hc. apply Inv_insert; auto. intros Hw Hs. apply wt_V; auto. Qed.
  Definition id_ok (o : op) (id : option term) : Prop := match id with None => True | Some i => V i = e o end.
  Lemma filter_V o id l : C o = true -> id_ok o id -> Forall DV l -> den o (map V (filter (keep id) l)) = den o (map V l).
  Proof.
    intros Ho Hi Hl. induction Hl as [|a r Ha Hr IH]; [reflexivity|].
    assert (Df : Forall DV (filter (keep id) r)). { rewrite Forall_forall in *. intros x Hx. apply filter_In in Hx. apply Hr. tauto. }
    pose proof (den_D o _ Ho (DV_map _ Hr)) as D1. simpl. destruct (keep id a) eqn:Ek; simpl; rewrite IH; auto.
    destruct id as [i|]; [|discriminate]. simpl in Ek, Hi. apply negb_false_iff, term_eqb_eq in Ek. subst i. rewrite Hi.
    symmetry. apply Hid; auto.
  Qed.
  Definition aci_spec (o : op) (id : option term) (t : term) : Prop := forall c r c', aci o id t c = (r, c') ->
    Inv c -> wt t = true -> S (sort_of t) = true -> V r = eval t E /\ DV r /\ Inv c'.
  Lemma aci_list_spec o id : C o = true -> forall args, Forall (aci_spec o id) args -> forall c l c',
    aci_list o id args c = (l, c') -> Inv c -> (forall a, In a args -> wt a = true /\ S (sort_of a) = true) ->
    den o (map V l) = den o (map (fun a => eval a E) args) /\ Forall DV l /\ Inv c'.
  Proof.
    intros Ho args HF. induction HF as [|a r Ha Hr IH]; intros c l c' H Hc Hw; simpl in H.
    - injection H as <- <-. split; [reflexivity|split; [constructor|exact Hc]].
    - destruct (aci o id a c) as [a' c1] eqn:E1. destruct (aci_list o id r c1) as [l2 c2] eqn:E2. injection H as <- <-.
      destruct (Hw a (or_introl eq_refl)) as [Wa Sa].
      destruct (Ha _ _ _ E1 Hc Wa Sa) as [K1 [K2 K3]].
      destruct (IH _ _ _ E2 K3) as [K4 [K5 K6]]; [intros; apply Hw; simpl; auto|].
      destruct (unnest_V o a' Ho K2) as [K7 K8].
      split; [|split; auto; apply Forall_app; auto].
      rewrite map_app, den_app by (auto; apply DV_map; auto). rewrite K8, K4, K1. reflexivity.
  Qed.
  Lemma aci_sound o id : (is_assoc o = true -> C o = true /\ Idem o = true) -> id_ok o id -> forall t, aci_spec o id t.
  Proof.
    intros HC Hi. induction t using term_ind'; intros c0 r c' H' Hc Hw Hs;
    try (cbn [aci] in H'; destruct (is_assoc o) eqn:Ha; cbn [negb] in H';
         [destruct (im_get term_eqb c0 _) eqn:Eg; injection H' as <- <-;
          [destruct (Hc _ _ Eg Hw Hs); split; [auto|split; auto]|destruct (wt_V _ Hw Hs); split; [auto|split; [auto|apply Inv_wt; auto]]]
         |injection H' as <- <-; destruct (wt_V _ Hw Hs); split; [auto|split; auto]]; fail).
    rename o0 into o'. rewrite aci_op in H'. destruct (is_assoc o) eqn:Ha; cbn [negb] in H';
      [|injection H' as <- <-; destruct (wt_V _ Hw Hs); split; [auto|split; auto]].
    destruct (im_get term_eqb c0 _) eqn:Eg; [injection H' as <- <-; destruct (Hc _ _ Eg Hw Hs); split; [auto|split; auto]|].
    destruct (op_eqb o' o) eqn:Eo; [|injection H' as <- <-; destruct (wt_V _ Hw Hs); split; [auto|split; [auto|apply Inv_wt; auto]]].
    apply op_eqb_eq in Eo. subst o'. destruct (HC eq_refl) as [HC1 HC2]. clear HC. rename HC1 into HC.
    destruct (aci_list o id args c0) as [l c1] eqn:El. injection H' as <- <-.
    pose proof (wt_op_args _ _ Hw) as [Wa _]. rewrite forallb_forall in Wa.
    pose proof (Hargs o args HC Hw Hs) as Sa.
    destruct (aci_list_spec o id HC args H c0 l c1 El Hc) as [K1 [K2 K3]]; [auto|].
    assert (Dd : Forall DV (dedup l)). { rewrite Forall_forall in *. intros x Hx. apply K2. apply dedup_In, Hx. }
    assert (Df : Forall DV (filter (keep id) (dedup l))).
    { rewrite Forall_forall in *. intros x Hx. apply filter_In in Hx. apply Dd. tauto. }
    destruct (rebuild_V o _ HC Df) as [R1 R2].
    assert (R3 : V (rebuild o (filter (keep id) (dedup l))) = eval (TOp o args) E).
    { rewrite R2, filter_V by auto. rewrite (den_same o _ (map V l) HC HC2); try apply DV_map; auto.
      - rewrite K1. symmetry. apply Heval; auto. rewrite Forall_forall. intros v Hv. apply in_map_iff in Hv.
        destruct Hv as [a [<- Hin]]. eapply HD; [apply (Sa a Hin)|]. apply eval_dom; auto.
      - intros v Hv. apply in_map_iff in Hv. destruct Hv as [a [<- Hin]]. apply in_map. apply dedup_In, Hin.
      - intros v Hv. apply in_map_iff in Hv. destruct Hv as [a [<- Hin]]. apply in_map. apply dedup_In, Hin. }
    split; [exact R3|]. split; [exact R1|]. apply Inv_insert; auto.
  Qed.
  Lemma aci_compare_sound a b : DV a -> aci_compare a b = true -> V a = V b.
  Proof.
    intros Da H. assert (K : term_eqb a b = true -> V a = V b) by (intros K; apply term_eqb_eq in K; congruence).
    unfold aci_compare in H. destruct a; auto. destruct b; auto.
    destruct (is_assoc o && negb (op_eqb o OBvConcat) && op_eqb o o0) eqn:Eo; auto.
    rewrite !andb_true_iff, negb_true_iff in Eo. destruct Eo as [[E1 E2] E3]. apply op_eqb_eq in E3. subst o0.
    assert (Ho : C o = true) by (destruct (C o) eqn:Ho; auto; cbn [DV] in Da; rewrite Ho in Da; destruct Da as [_ [W1 W2]]; rewrite <- Ho; eapply Hcls; eauto). cbn [V]. rewrite Ho.
    apply (ms_eqb_spec term_eqb term_eqb_eq) in H. apply den_perm; auto; [|apply Permutation_map; auto].
    apply DV_map. apply DV_op in Da; auto.
  Qed.
End ACI.

Section Instances.
  Context {I : interp} (E : env I) (HE : env_ok E).
  (** Boolean operators *)
  Definition f_bool (o : op) (a b : value I) : value I := VB (if op_eqb o OAnd then truth a && truth b else truth a || truth b).
  Definition e_bool (o : op) : value I := VB (op_eqb o OAnd).
  Definition D_bool (v : value I) : Prop := exists b, v = VB b.
  Definition S_bool (s : sort) : bool := sort_eqb s SBool.
  Lemma ao_cases o : is_ao o = true -> o = OAnd \/ o = OOr.
  Proof. unfold is_ao. rewrite orb_true_iff, !op_eqb_eq. auto. Qed.
  Lemma den_bool o l : is_ao o = true -> Forall D_bool (map (fun a => eval a E) l) ->
    eval (TOp o l) E = den f_bool e_bool o (map (fun a => eval a E) l).
  Proof.
    intros Ho _. apply ao_cases in Ho. cbn [eval]. generalize (map (fun a => eval a E) l) as vs.
    induction vs as [|v r IH]; [destruct Ho; subst; reflexivity|]. unfold den in *. cbn [fold_right]. rewrite <- IH.
    destruct Ho; subst; reflexivity.
  Qed.
  Lemma S_bool_eq s : S_bool s = true -> s = SBool. Proof. apply sort_eqb_eq. Qed.
  Lemma bool_HD s v : S_bool s = true -> idom I s v = true -> D_bool v.
  Proof. intros H. apply S_bool_eq in H. subst. apply dom_bool. Qed.
  Lemma bool_args o l : is_ao o = true -> wt (TOp o l) = true -> S_bool (sort_of (TOp o l)) = true -> forall a, In a l -> S_bool (sort_of a) = true.
  Proof. intros Ho Hw _ a Ha. apply ao_wt in Hw; auto. destruct Hw as [_ Hw]. rewrite forallb_forall in Hw. apply Hw in Ha.
    apply andb_true_iff in Ha. tauto. Qed.
  Lemma bool_cls o l : is_assoc o = true -> op_eqb o OBvConcat = false -> wt (TOp o l) = true -> S_bool (sort_of (TOp o l)) = true -> is_ao o = true.
  Proof.
    intros Ha Hc Hw Hs. rewrite wt_op_sort in Hs by auto. apply wt_op_args in Hw. destruct Hw as [_ Hw].
    unfold is_assoc in Ha. apply existsb_exists in Ha. destruct Ha as [x [Hx He]]. apply op_eqb_eq in He. subst x.
    simpl in Hx. repeat destruct Hx as [<-|Hx]; try contradiction; try reflexivity; try discriminate Hc; exfalso;
    cbn [op_wt op_sort] in *; unfold S_bool in Hs; apply sort_eqb_eq in Hs; revert Hs.
    1,2: destruct (existsb _ _); discriminate.
    all: destruct (map sort_of l) as [|[] r]; discriminate.
  Qed.

  (** bit-vector operators of width [w] *)
  Variable w : nat.
  Definition is_bvc (o : op) : bool := existsb (op_eqb o) [OBvAdd; OBvOr; OBvMul; OBvAnd; OBvXor].
  Definition is_bvi (o : op) : bool := op_eqb o OBvAnd || op_eqb o OBvOr.
  Definition g_bv (o : op) (x y : Z) : Z :=
    if op_eqb o OBvAnd then Z.land x y else if op_eqb o OBvOr then Z.lor x y else if op_eqb o OBvXor then Z.lxor x y
    else if op_eqb o OBvAdd then bvmod w (x + y) else bvmod w (x * y).
  Definition f_bv (o : op) (a b : value I) : value I := VBV w (g_bv o (bvz a) (bvz b)).
  Definition e_bv (o : op) : value I :=
    VBV w (bvmod w (if op_eqb o OBvAnd then 2 ^ Z.of_nat w - 1 else if op_eqb o OBvMul then 1 else 0)%Z).
  Definition D_bv (v : value I) : Prop := idom I (SBV w) v = true.
  Definition S_bv (s : sort) : bool := sort_eqb s (SBV w).
  Lemma bvc_cases o : is_bvc o = true -> o = OBvAdd \/ o = OBvOr \/ o = OBvMul \/ o = OBvAnd \/ o = OBvXor.
  Proof. unfold is_bvc. cbn [existsb]. rewrite !orb_true_iff, !op_eqb_eq. intuition discriminate. Qed.
  Lemma bvc_bin o : is_bvc o = true -> exists g, bvbin o = Some g /\ (forall x y, g w x y = g_bv o x y) /\
    forall vs : list (value I), eval_op o vs = fold1 o (bv2 g) vs.
  Proof. intros H. apply bvc_cases in H. decompose [or] H; subst; eexists; (split; [reflexivity|split; reflexivity]). Qed.
  Notation rng x := (0 <= x < 2 ^ Z.of_nat w)%Z.
  Lemma g_range o x y : is_bvc o = true -> rng x -> rng y -> rng (g_bv o x y).
  Proof. intros Ho Hx Hy. destruct (bvc_bin o Ho) as [g [H1 [H2 _]]]. rewrite <- H2. eapply bvbin_range; eauto. Qed.
  Lemma g_comm o x y : g_bv o x y = g_bv o y x.
  Proof. unfold g_bv. rewrite Z.land_comm, Z.lor_comm, Z.lxor_comm, Z.add_comm, Z.mul_comm. reflexivity. Qed.
  Lemma g_assoc o x y z : g_bv o x (g_bv o y z) = g_bv o (g_bv o x y) z.
  Proof.
    unfold g_bv. destruct (op_eqb o OBvAnd); [apply Z.land_assoc|]. destruct (op_eqb o OBvOr); [apply Z.lor_assoc|].
    destruct (op_eqb o OBvXor); [symmetry; apply Z.lxor_assoc|].
    unfold bvmod. destruct (op_eqb o OBvAdd).
    - rewrite Zplus_mod_idemp_r, Zplus_mod_idemp_l. f_equal. lia.
    - rewrite Zmult_mod_idemp_r, Zmult_mod_idemp_l. f_equal. lia.
  Qed.
  Lemma bvmod_small x : rng x -> bvmod w x = x.
  Proof. intros H. apply Z.mod_small, H. Qed.
  Lemma g_id o x : is_bvc o = true -> rng x -> g_bv o (bvz (e_bv o)) x = x.
  Proof.
    intros Ho Hx. pose proof (pow2_pos w) as Hp. apply bvc_cases in Ho. unfold e_bv. cbn [bvz].
    decompose [or] Ho; subst o; unfold g_bv; cbn [op_eqb op_code N.eqb Pos.eqb].
    - rewrite (bvmod_small 0) by lia. apply bvmod_small; auto.
    - rewrite (bvmod_small 0) by lia. apply Z.lor_0_l.
    - unfold bvmod. rewrite Zmult_mod_idemp_l, Z.mul_1_l. apply bvmod_small; auto.
    - rewrite (bvmod_small (2 ^ Z.of_nat w - 1)) by lia. rewrite Z.land_comm.
      replace (2 ^ Z.of_nat w - 1)%Z with (Z.ones (Z.of_nat w)) by (rewrite Z.ones_equiv; lia).
      rewrite Z.land_ones by lia. apply Z.mod_small, Hx.
    - rewrite (bvmod_small 0) by lia. apply Z.lxor_0_l.
  Qed.
  Lemma g_idem o x : is_bvi o = true -> g_bv o x x = x.
  Proof.
    unfold is_bvi. rewrite orb_true_iff, !op_eqb_eq. intros [->| ->]; unfold g_bv; cbn; [apply Z.land_diag|apply Z.lor_diag].
  Qed.
  Lemma D_bv_inv v : D_bv v -> exists z, v = VBV w z /\ rng z.
  Proof. apply dom_bv. Qed.
  Ltac dbv := repeat match goal with H : D_bv ?v |- _ => apply D_bv_inv in H; destruct H as [? [-> ?]] end.
  Lemma bv_HD s v : S_bv s = true -> idom I s v = true -> D_bv v.
  Proof. intros H. apply sort_eqb_eq in H. subst. auto. Qed.
  Lemma bv_Hf o a b : is_bvc o = true -> D_bv a -> D_bv b -> D_bv (f_bv o a b).
  Proof. intros Ho Ha Hb. dbv. apply dom_VBV. cbn [bvz]. apply g_range; auto. Qed.
  Lemma bv_He o : is_bvc o = true -> D_bv (e_bv o).
  Proof. intros Ho. apply dom_VBV, bvmod_range. Qed.
  Lemma bv_assoc o a b c : f_bv o a (f_bv o b c) = f_bv o (f_bv o a b) c.
  Proof. unfold f_bv. cbn [bvz]. rewrite g_assoc. reflexivity. Qed.
  Lemma bv_comm o a b : f_bv o a b = f_bv o b a.
  Proof. unfold f_bv. rewrite g_comm. reflexivity. Qed.
  Lemma bv_id o a : is_bvc o = true -> D_bv a -> f_bv o (e_bv o) a = a.
  Proof. intros Ho Ha. dbv. unfold f_bv. rewrite g_id by auto. reflexivity. Qed.
  Lemma bv_idem o a : is_bvi o = true -> D_bv a -> f_bv o a a = a.
  Proof. intros Ho Ha. dbv. unfold f_bv. rewrite g_idem by auto. reflexivity. Qed.
  Lemma bv_fold o l : is_bvc o = true -> forall a, D_bv a -> Forall D_bv l ->
    fold_left (f_bv o) l a = f_bv o a (fold_right (f_bv o) (e_bv o) l).
  Proof.
    intros Ho. induction l as [|b r IH]; intros a Ha Hl; cbn [fold_left fold_right].
    - rewrite bv_comm, bv_id; auto.
    - inversion Hl; subst. rewrite IH by (auto using bv_Hf). rewrite bv_assoc. reflexivity.
  Qed.
  Lemma bvc_wt o l : is_bvc o = true -> wt (TOp o l) = true -> S_bv (sort_of (TOp o l)) = true ->
    min_len 2 l = true /\ forall a, In a l -> S_bv (sort_of a) = true.
  Proof.
    intros Ho Hw Hs. rewrite wt_op_sort in Hs by auto. apply wt_op_args in Hw. destruct Hw as [_ Hw].
    assert (K : op_wt o (map sort_of l) = min_len 2 (map sort_of l) && forallb is_bv_sort (map sort_of l) && all_eq (map sort_of l) /\
      op_sort o (map sort_of l) = match map sort_of l with SBV w :: _ => SBV w | _ => SType end).
    { apply bvc_cases in Ho. decompose [or] Ho; subst; split; reflexivity. }
    destruct K as [K1 K2]. rewrite K1 in Hw. rewrite K2 in Hs. rewrite !andb_true_iff in Hw. destruct Hw as [[H1 H2] H3].
    split. { unfold min_len in *. rewrite map_length in H1. auto. }
    intros a Ha. apply (in_map sort_of) in Ha. pose proof (all_eq_spec _ H3 _ Ha) as He.
    unfold S_bv. rewrite He. destruct (map sort_of l) as [|[] r]; try discriminate. exact Hs.
  Qed.
  Lemma bv_eval o l : is_bvc o = true -> wt (TOp o l) = true -> S_bv (sort_of (TOp o l)) = true ->
    Forall D_bv (map (fun a => eval a E) l) -> eval (TOp o l) E = den f_bv e_bv o (map (fun a => eval a E) l).
  Proof.
    intros Ho Hw Hs Hl. destruct (bvc_wt o l Ho Hw Hs) as [Hm _]. destruct (bvc_bin o Ho) as [g [Hg1 [Hg2 Hg3]]].
    cbn [eval]. rewrite Hg3. destruct l as [|a [|b r]]; try discriminate. cbn [map] in *.
    change (fold_left (bv2 g) (eval b E :: map (fun a => eval a E) r) (eval a E) =
            fold_right (f_bv o) (e_bv o) (eval a E :: eval b E :: map (fun a => eval a E) r)).
    inversion Hl as [|? ? Ha Hl']; subst. clear Hl.
    cbn [fold_right]. rewrite <- (bv_fold o (eval b E :: map (fun a => eval a E) r) Ho) by auto.
    revert Ha Hl'. generalize (eval b E :: map (fun a => eval a E) r) as vs, (eval a E) as v. clear - Hg2 Ho Hg1.
    induction vs as [|u r IH]; intros v Hv Hl; [reflexivity|]. inversion Hl; subst. cbn [fold_left].
    assert (K : bv2 g v u = f_bv o v u). { dbv. unfold bv2, f_bv. cbn [bvw bvz]. rewrite Hg2. reflexivity. }
    rewrite K. apply IH; auto using bv_Hf.
  Qed.
  Lemma bv_cls o l : is_assoc o = true -> op_eqb o OBvConcat = false -> wt (TOp o l) = true -> S_bv (sort_of (TOp o l)) = true -> is_bvc o = true.
  Proof.
    intros Ha Hc Hw Hs. rewrite wt_op_sort in Hs by auto.
    unfold is_assoc in Ha. apply existsb_exists in Ha. destruct Ha as [x [Hx He]]. apply op_eqb_eq in He. subst x.
    simpl in Hx. repeat destruct Hx as [<-|Hx]; try contradiction; try reflexivity; try discriminate; exfalso;
    cbn [op_sort] in *; unfold S_bv in Hs; apply sort_eqb_eq in Hs; revert Hs; try destruct (existsb _ _); discriminate.
  Qed.
End Instances.

(** the side condition under which aci_simp is sound: no side is headed by an operator that is not idempotent *)
Definition aci_head (t : term) : bool :=
  match t with TOp o _ => negb (existsb (op_eqb o) [OAdd; OMult; OBvAdd; OBvMul; OBvXor; OBvConcat]) | _ => true end.
Definition aci_ok (c : clause) : bool :=
  forallb (fun t => match op2 OEquals t with Some (a, b) => aci_head a && aci_head b | None => true end) c.
Lemma aci_head_op o l : aci_head (TOp o l) = true -> is_assoc o = true -> is_ao o = true \/ is_bvi o = true.
Proof.
  cbn [aci_head]. rewrite negb_true_iff. intros Hn Ha. unfold is_assoc in Ha. apply existsb_exists in Ha. destruct Ha as [x [Hx He]].
  apply op_eqb_eq in He. subst x. simpl in Hx. repeat destruct Hx as [<-|Hx]; try contradiction; auto; discriminate.
Qed.
Lemma aci_plain t c : (forall o l, t = TOp o l -> is_assoc o = false) -> forall r c', aci_side t c = ROk (r, c') -> r = t /\ c' = c.
Proof.
  intros H r c' Hs. unfold aci_side in Hs. destruct t; try (injection Hs as <- <-; auto).
  apply obind_ok in Hs. destruct Hs as [id [_ Hs]]. rewrite aci_op in Hs. rewrite (H o args eq_refl) in Hs. cbn [negb] in Hs.
  injection Hs as <- <-. auto.
Qed.
Definition head_assoc (t : term) : bool := match t with TOp o _ => is_assoc o | _ => false end.
Lemma aci_plain' t c r c' : head_assoc t = false -> aci_side t c = ROk (r, c') -> r = t /\ c' = c.
Proof. intros H. apply aci_plain. intros o l ->. exact H. Qed.
Section AciMain.
  Context {I : interp} (E : env I) (HE : env_ok E).
  Lemma aci_side_bool t c r c' : wt t = true -> sort_of t = SBool -> aci_head t = true -> aci_side t c = ROk (r, c') ->
    Inv E is_ao S_bool D_bool f_bool e_bool c ->
    V E is_ao f_bool e_bool r = eval t E /\ DV E is_ao S_bool D_bool r /\ Inv E is_ao S_bool D_bool f_bool e_bool c'.
  Proof.
    intros Hw Hs Hh Ht Hc. assert (HS : S_bool (sort_of t) = true) by (rewrite Hs; reflexivity).
    assert (G : forall t, wt t = true -> S_bool (sort_of t) = true -> V E is_ao f_bool e_bool t = eval t E /\ DV E is_ao S_bool D_bool t).
    { intros u Wu Su. apply (wt_V E HE is_ao S_bool D_bool f_bool e_bool bool_HD); auto.
      - intros o l Ho _ _. apply den_bool; auto. - apply bool_args. }
    destruct (head_assoc t) eqn:Ha.
    2:{ destruct (aci_plain' t c r c' Ha Ht) as [-> ->]. destruct (G t Hw HS). auto. }
    destruct t as [| | |o l| | | |]; try discriminate. cbn [head_assoc] in Ha. cbn [aci_side] in Ht. apply obind_ok in Ht.
    destruct Ht as [id [Hid Ht]]. assert (Ht' : aci o id (TOp o l) c = (r, c')) by congruence. clear Ht.
    assert (Ho : is_ao o = true).
    { eapply bool_cls; eauto. destruct (op_eqb o OBvConcat) eqn:Ec; auto. apply op_eqb_eq in Ec. subst. discriminate. }
    eapply (aci_sound E HE is_ao is_ao S_bool D_bool f_bool e_bool bool_HD) with (o := o) (id := id); eauto.
    - intros ? a b _ [x ->] [y ->]. eexists. reflexivity.
    - intros ? _. eexists. reflexivity.
    - intros ? a b d _ [x ->] [y ->] [z ->]. unfold f_bool. cbn [truth]. destruct (op_eqb o0 OAnd); f_equal; [apply andb_assoc|apply orb_assoc].
    - intros ? a b _ [x ->] [y ->]. unfold f_bool. cbn [truth]. destruct (op_eqb o0 OAnd); f_equal; [apply andb_comm|apply orb_comm].
    - intros ? a _ [x ->]. unfold f_bool, e_bool. cbn [truth]. destruct (op_eqb o0 OAnd); reflexivity.
    - intros ? a _ _ [x ->]. unfold f_bool. cbn [truth]. destruct (op_eqb o0 OAnd); f_equal; destruct x; reflexivity.
    - intros ? ? Ho' _ _. apply den_bool; auto.
    - apply bool_args.
    - apply ao_cases in Ho. destruct Ho; subst; cbn in Hid; injection Hid as <-; reflexivity.
  Qed.
  Lemma aci_side_bv w t c r c' : wt t = true -> sort_of t = SBV w -> aci_head t = true -> aci_side t c = ROk (r, c') ->
    Inv E is_bvc (S_bv w) (D_bv w) (f_bv w) (e_bv w) c ->
    V E is_bvc (f_bv w) (e_bv w) r = eval t E /\ DV E is_bvc (S_bv w) (D_bv w) r /\ Inv E is_bvc (S_bv w) (D_bv w) (f_bv w) (e_bv w) c'.
  Proof.
    intros Hw Hs Hh Ht Hc. assert (HS : S_bv w (sort_of t) = true) by (rewrite Hs; apply sort_eqb_refl).
    assert (G : forall t, wt t = true -> S_bv w (sort_of t) = true -> V E is_bvc (f_bv w) (e_bv w) t = eval t E /\ DV E is_bvc (S_bv w) (D_bv w) t).
    { intros u Wu Su. apply (wt_V E HE is_bvc (S_bv w) (D_bv w) (f_bv w) (e_bv w) (bv_HD w)); auto.
      - intros o l Ho. apply bv_eval; auto. - intros o l Ho Wo So. apply (bvc_wt w o l); auto. }
    destruct (head_assoc t) eqn:Ha.
    2:{ destruct (aci_plain' t c r c' Ha Ht) as [-> ->]. destruct (G t Hw HS). auto. }
    destruct t as [| | |o l| | | |]; try discriminate. cbn [head_assoc] in Ha. cbn [aci_side] in Ht. apply obind_ok in Ht.
    destruct Ht as [id [Hid Ht]]. assert (Ht' : aci o id (TOp o l) c = (r, c')) by congruence. clear Ht.
    assert (Ho : is_bvc o = true).
    { eapply bv_cls; eauto. destruct (op_eqb o OBvConcat) eqn:Ec; auto. apply op_eqb_eq in Ec. subst. discriminate. }
    assert (Hi : is_bvi o = true).
    { destruct (aci_head_op o l Hh Ha) as [K|K]; auto. apply ao_cases in K. destruct K; subst; discriminate. }
    eapply (aci_sound E HE is_bvc is_bvi (S_bv w) (D_bv w) (f_bv w) (e_bv w) (bv_HD w)) with (o := o) (id := id); eauto.
    - apply bv_Hf.
    - apply bv_He.
    - intros. apply bv_assoc.
    - intros. apply bv_comm.
    - apply bv_id.
    - intros. apply bv_idem; auto.
    - apply bv_eval; auto.
    - intros o' l' Ho' W' S'. apply (bvc_wt w o' l'); auto.
    - destruct (bvc_wt w o l Ho Hw HS) as [Hm Hargs]. destruct l as [|a l]; [discriminate|].
      specialize (Hargs a (or_introl eq_refl)). apply sort_eqb_eq in Hargs.
      unfold is_bvi in Hi. rewrite orb_true_iff, !op_eqb_eq in Hi. destruct Hi; subst o; cbn in Hid; unfold bv_identity, first_sort in Hid;
      cbn [obind] in Hid; rewrite Hargs in Hid; injection Hid as <-; reflexivity.
  Qed.
End AciMain.
Lemma no_assoc_head t s : wt t = true -> aci_head t = true -> sort_of t = s -> s <> SBool -> (forall w, s <> SBV w) -> head_assoc t = false.
Proof.
  intros Wu Hu Su N1 N2. destruct t as [| | |o l| | | |]; auto. cbn [head_assoc]. destruct (is_assoc o) eqn:Ha; auto. exfalso.
  destruct (aci_head_op o l Hu Ha) as [K|K].
  - apply (ao_sort o l) in K. congruence.
  - rewrite wt_op_sort in Su by auto. unfold is_bvi in K. rewrite orb_true_iff, !op_eqb_eq in K. apply wt_op_args in Wu. destruct Wu as [_ Wu].
    destruct K; subst o; cbn [op_sort op_wt] in Su, Wu; destruct (map sort_of l) as [|s1 r]; try discriminate; rewrite !andb_true_iff in Wu; cbn [forallb] in Wu;
    destruct Wu as [[_ Wu] _]; apply andb_true_iff in Wu; destruct Wu as [Wu _]; destruct s1; try discriminate; eapply N2; eauto.
Qed.
Theorem r_aci_simp_sound c ps args : r_aci_simp c ps args = ROk tt -> clause_wt c = true -> aci_ok c = true ->
  entails ps c.
Proof.
  intros H Hw Hok I E HE _. unfold r_aci_simp in H. rinv.
  unfold clause_wt in Hw. simpl in Hw. rewrite andb_true_r in Hw. apply bool_term_wt, eq_args_wt in Hw. destruct Hw as [W1 [W2 WS]].
  unfold aci_ok in Hok. cbn [forallb] in Hok. unfold op2 in Hok. cbn [as_op] in Hok. 
  apply clause_holds_b. simpl. rewrite orb_false_r. apply holds_eq_iff.
  match goal with H : aci_side _ [] = ROk ?x |- _ => rename H into S1; destruct x as [t11 cache] end.
  apply obind_ok in H. destruct H as [[t22 cache'] [S2 H]]. apply rassert_ok in H.
  cbn in Hok. rewrite andb_true_r, andb_true_iff in Hok. destruct Hok as [O1 O2].
  destruct (sort_eqb (sort_of t) SBool) eqn:Eb.
  { apply sort_eqb_eq in Eb.
    assert (I0 : Inv E is_ao S_bool D_bool f_bool e_bool []) by (intros ? ? K; discriminate).
    destruct (aci_side_bool E HE t [] t11 cache W1 Eb O1 S1 I0) as [V1 [D1 I1]].
    destruct (aci_side_bool E HE t0 cache t22 cache' W2 ltac:(congruence) O2 S2 I1) as [V2 [D2 I2]].
    rewrite <- V1, <- V2. eapply (aci_compare_sound E is_ao S_bool D_bool f_bool e_bool); eauto.
    - intros ? a b _ [x1 ->] [y ->]. eexists. reflexivity.
    - intros ? _. eexists. reflexivity.
    - intros o a b d _ [x1 ->] [y ->] [z ->]. unfold f_bool. cbn [truth]. destruct (op_eqb o OAnd); f_equal; [apply andb_assoc|apply orb_assoc].
    - intros o a b _ [x1 ->] [y ->]. unfold f_bool. cbn [truth]. destruct (op_eqb o OAnd); f_equal; [apply andb_comm|apply orb_comm].
    - apply bool_cls. }
  destruct (sort_of t) as [| | | | | | | | |w| |] eqn:Es.
  10:{ assert (I0 : Inv E is_bvc (S_bv w) (D_bv w) (f_bv w) (e_bv w) []) by (intros ? ? K; discriminate).
    destruct (aci_side_bv E HE w t [] t11 cache W1 Es O1 S1 I0) as [V1 [D1 I1]].
    destruct (aci_side_bv E HE w t0 cache t22 cache' W2 ltac:(congruence) O2 S2 I1) as [V2 [D2 I2]].
    rewrite <- V1, <- V2. eapply (aci_compare_sound E is_bvc (S_bv w) (D_bv w) (f_bv w) (e_bv w)); eauto.
    - apply bv_Hf.
    - apply bv_He.
    - intros. apply bv_assoc.
    - intros. apply bv_comm.
    - apply bv_cls. }
  all: destruct (aci_plain' t [] t11 cache) as [-> ->]; [eapply no_assoc_head; eauto; discriminate|auto|].
  all: destruct (aci_plain' t0 [] t22 cache') as [-> ->]; [eapply no_assoc_head; eauto; try discriminate; congruence|auto|].
  all: assert (K1 : head_assoc t = false) by (eapply no_assoc_head; eauto; discriminate).
  all: assert (K : term_eqb t t0 = true); [destruct t; auto; destruct t0; auto; cbn [head_assoc] in K1; unfold aci_compare in H; rewrite K1 in H; exact H|].
  all: apply term_eqb_eq in K; congruence.
Qed.
