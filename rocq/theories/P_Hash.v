(** C38: the verdict of the rules that walk through hash tables, for every order of the walk. *)
From Coq Require Import List String ZArith Bool Permutation Lia.
From Verif Require Import Base Term Field Sem Utils Rules Std Checker CheckerSem Subst Context R_Resolution R_ResExact R_Extras R_Drup DrupSound DrupOrder R_Poly PolySound PolyOrder
  R_Binder OnepointSound R_CP HashOrder BinderRefute.
Import ListNotations.
Local Open Scope string_scope.

(** ** Cutting planes.  [ord i m] is the order in which the i-th loop of a rule walks through the map [m], [any_order ord]
    says that it visits each entry once; [show] is the printer of terms.  The [_o] versions of the rules (HashOrder.v) walk in the order [ord],
    the ones without in the order in which the literals were inserted. *)
Theorem C38_cp_addition : forall show ord, any_order ord -> forall c ps args, r_cp_addition_o show ord c ps args = r_cp_addition show c ps args.
Proof. exact cp_addition_order. Qed.
Print Assumptions C38_cp_addition.
Theorem C38_cp_multiplication : forall show ord, any_order ord -> forall c ps args,
  r_cp_multiplication_o show ord c ps args = r_cp_multiplication show c ps args.
Proof. exact cp_multiplication_order. Qed.
Print Assumptions C38_cp_multiplication.
Theorem C38_cp_division : forall show ord, any_order ord -> forall c ps args, r_cp_division_o show ord c ps args = r_cp_division show c ps args.
Proof. exact cp_division_order. Qed.
Print Assumptions C38_cp_division.
Theorem C38_cp_saturation : forall show ord, any_order ord -> forall c ps args,
  r_cp_saturation_o show ord c ps args = r_cp_saturation show c ps args.
Proof. exact cp_saturation_order. Qed.
Print Assumptions C38_cp_saturation.

(** ** onepoint: the points are visited in the order of a hash set.  The verdict can depend on it. *)
Theorem C38_onepoint_refuted : exists ra ord1 ord2, any_listing ord1 /\ any_listing ord2 /\
  (forall l, Permutation l (ord1 l)) /\ (forall l, Permutation l (ord2 l)) /\
  forallb clause_wt [ra_concl ra] = true /\
  r_onepoint_o ord1 ra = ROk tt /\ r_onepoint_o ord2 ra = RPanic.
Proof.
  set (x := TVar "x" SBool). set (p := TVar "p" SBool).
  set (lt := TLet [("u", p)] (TVar "u" SBool)). set (fa := TBind BForall [("z", SBool)] (TVar "z" SBool)).
  set (body := fun y => TOp OAnd [tEq y p; tEq (TVar "r" SBool) fa; tEq (TVar "q" SBool) lt]).
  exists (mkRA [tEq (TBind BExists [("x", SBool)] (body x)) (body p)] [] [] [[AAssign ("x", SBool) p]] (Some [tEq (body x) (body p)]) []).
  exists (fun l => l), (fun l => rev l).
  split; [intros l y; reflexivity|]. split; [intros l y; rewrite <- in_rev; reflexivity|].
  split; [intros l; apply Permutation_refl|]. split; [intros l; apply Permutation_rev|].
  split; [vm_compute; reflexivity|]. split; vm_compute; reflexivity.
Qed.
Print Assumptions C38_onepoint_refuted.
(** If the conclusion has no [let], it cannot: whatever lists the points gives the same verdict. *)
Theorem C38_onepoint_partial : forall ord ra, any_listing ord -> forallb no_let (ra_concl ra) = true -> r_onepoint_o ord ra = r_onepoint ra.
Proof. exact onepoint_order. Qed.
Print Assumptions C38_onepoint_partial.

(** ** drup and drat: the table of clauses is walked through in the order of the hashes *)
Theorem C38_drup : forall K (keqb : K -> K -> bool) (hash : term -> K), (forall a b, keqb a b = true <-> a = b) ->
  forall sh rat c ps args, (forall i m, Permutation m (sh i m)) -> r_drup_sh keqb hash sh rat c ps args = r_drup keqb hash rat c ps args.
Proof. exact @drup_order. Qed.
Print Assumptions C38_drup.

(** ** poly_simp: monomials are sorted by the addresses of their terms; every sorting function gives the same verdict *)
Theorem C38_poly_simp : forall srt srt', sorting srt -> sorting srt' -> forall c ps args,
  r_poly_simp mon_eqb srt c ps args = r_poly_simp mon_eqb srt' c ps args.
Proof. intros srt srt' H H' c ps args. rewrite !poly_sorted; auto. Qed.
Print Assumptions C38_poly_simp.

(** ** Resolution with pivots and reordering: the order of the literals in the clauses does not matter, so neither does the order of
    the sets they are put into *)
Lemma resolvent_perm C C' D D' p b R R' : same C C' -> Permutation D D' -> same R R' -> resolvent C D p b R -> resolvent C' D' p b R'.
Proof.
  intros HC HD HR [H1 (D1 & D2 & E & HN & H2)]. split; [apply HC, H1|]. subst D.
  set (pn := if b then R_ResExact.neg_lit p else p) in *.
  assert (Hin : In pn D') by (apply (Permutation_in _ HD), in_or_app; right; left; reflexivity).
  assert (HS : exists A B, D' = (A ++ pn :: B)%list /\ ~ In pn A).
  { clear - Hin. induction D' as [|d D' IH]; [contradiction|]. destruct (lit_eqb d pn) eqn:E.
    - apply lit_eqb_eq in E. subst d. exists [], D'. split; auto.
    - destruct Hin as [->|Hin]; [exfalso; assert (lit_eqb pn pn = true) by (apply lit_eqb_eq; reflexivity); congruence|].
      destruct (IH Hin) as (A & B & -> & HA). exists (d :: A), B. split; [reflexivity|]. intros [->|H]; [|auto].
      assert (lit_eqb pn pn = true) by (apply lit_eqb_eq; reflexivity). congruence. }
  destruct HS as (A & B & -> & HA). apply Permutation_app_inv in HD. exists A, B. split; [reflexivity|]. split; [exact HA|].
  intros x. rewrite <- (HR x), H2. rewrite (HC x). rewrite <- !in_app_iff.
  split; intros [H|H]; auto; right; [apply (Permutation_in _ HD), H|apply (Permutation_in _ (Permutation_sym HD)), H].
Qed.
Lemma chain_perm : forall C l R, chain C l R -> forall C' l' R', same C C' -> same R R' ->
  Forall2 (fun s s' : clause * (R_ResExact.lit * bool) => Permutation (fst s) (fst s') /\ snd s = snd s') l l' -> chain C' l' R'.
Proof.
  induction 1 as [C R HCR|C D p b C1 l R Hr Hc IH]; intros C' l' R' HC HR HF.
  - inversion HF. subst. constructor. intros x. rewrite <- (HC x), <- (HR x). apply HCR.
  - inversion HF as [|? [D' pb] ? l2 [HD Hpb] HF2]; subst. cbn [fst snd] in *. subst pb.
    apply (Chain_cons C' D' p b C1); [|apply IH; auto; intros x; reflexivity].
    apply (resolvent_perm C C' (lits D) (lits D') p b C1 C1); auto; [apply Permutation_map, HD|intros x; reflexivity].
Qed.
Lemma combine_perm (l l' : list clause) : Forall2 (@Permutation term) l l' -> forall pv : list (R_ResExact.lit * bool),
  Forall2 (fun s s' : clause * (R_ResExact.lit * bool) => Permutation (fst s) (fst s') /\ snd s = snd s') (combine l pv) (combine l' pv).
Proof.
  induction 1 as [|a b l l' H HF IH]; intros pv; [destruct pv; constructor|].
  destruct pv as [|v pv]; [constructor|]. cbn [combine]. constructor; [split; auto|apply IH].
Qed.
Lemma res_perm c c' ps ps' args : Permutation c c' -> Forall2 (@Permutation term) ps ps' ->
  r_resolution_with_args c ps args = ROk tt -> r_resolution_with_args c' ps' args = ROk tt.
Proof.
  intros Hc HF H. apply (proj1 (resolution_with_args_exact _ _ _)) in H. destruct H as (p0 & p1 & rest & pv & -> & Hp & HL & HC).
  apply resolution_with_args_exact. inversion HF as [|? q0 ? r0 H0 HF0]; subst. inversion HF0 as [|? q1 ? rest' H1 HF1]; subst.
  exists q0, q1, rest', pv. split; [reflexivity|]. split; [auto|]. assert (HL' : List.length rest = List.length rest') by (clear - HF1; induction HF1; cbn [List.length]; congruence). split; [rewrite HL; cbn [List.length]; rewrite HL'; reflexivity|].
  apply (chain_perm _ _ _ HC); [intros x; split; apply Permutation_in, Permutation_map; [auto|apply Permutation_sym; auto]|
    intros x; split; apply Permutation_in, Permutation_map; [auto|apply Permutation_sym; auto]|].
  apply combine_perm. exact HF0.
Qed.
Theorem C38_resolution : forall c c' ps ps' args, Permutation c c' -> Forall2 (@Permutation term) ps ps' ->
  (r_resolution_with_args c ps args = ROk tt <-> r_resolution_with_args c' ps' args = ROk tt).
Proof.
  intros c c' ps ps' args Hc HF. split; [apply res_perm; auto|]. apply res_perm; [apply Permutation_sym; auto|].
  clear - HF. induction HF; constructor; auto. apply Permutation_sym; auto.
Qed.
Print Assumptions C38_resolution.
Theorem C38_reordering : forall c p args, r_reordering c [p] args = ROk tt <-> Permutation c p.
Proof.
  intros c p args. unfold r_reordering. cbn [len_is List.length Nat.eqb rassert obind idx nth_error unwrap]. unfold len_is. split.
  - intros H. apply obind_ok in H. destruct H as [? [_ H]]. destruct (ms_sym_diff _ _ _) eqn:E; try discriminate.
    apply (ms_sym_diff_spec term_eqb term_eqb_eq) in E. exact E.
  - intros H. rewrite (Permutation_length H), PeanoNat.Nat.eqb_refl. cbn [rassert obind].
    rewrite (proj2 (ms_sym_diff_spec term_eqb term_eqb_eq c p) H). reflexivity.
Qed.
Print Assumptions C38_reordering.

(** ** Witnesses *)
Definition sh_ (t : term) : string := match t with TVar x _ => x | _ => "?" end.
Definition pbx (c : Z) (t : term) : term := TOp OMult [TConst (CInt c); t].
Definition pbx_neg (t : term) : term := TOp OSub [TConst (CInt 1); t].
Definition pbge (l : list term) (k : Z) : term := TOp OGe [TOp OAdd l; TConst (CInt k)].
Definition ix : term := TVar "x" SInt.
Definition iy : term := TVar "y" SInt.
(** 2 x + 3 y >= 3 and 1 ~x + 1 y >= 1 give 1 x + 0 ~x + 4 y >= 3; the maps are walked through backwards *)
Example C38_any_order_ok : any_order (fun _ m => rev m).
Proof. intros i m. apply Permutation_rev. Qed.
Example C38_cp_ok : r_cp_addition_o sh_ (fun _ m => rev m) [pbge [pbx 1 ix; pbx 4 iy] 3]
  [[pbge [pbx 2 ix; pbx 3 iy] 3]; [pbge [pbx 1 (pbx_neg ix); pbx 1 iy] 1]] [] = ROk tt.
Proof. vm_compute. reflexivity. Qed.
Example C38_cp_rejects : r_cp_addition_o sh_ (fun _ m => rev m) [pbge [pbx 1 ix; pbx 4 iy] 4]
  [[pbge [pbx 2 ix; pbx 3 iy] 3]; [pbge [pbx 1 (pbx_neg ix); pbx 1 iy] 1]] [] = RErr.
Proof. vm_compute. reflexivity. Qed.
Definition bp_ : term := TVar "p" SBool.
Definition bq_ : term := TVar "q" SBool.
(** the order of the literals is another one, the verdict is not *)
Example C38_resolution_ok : r_resolution_with_args [bq_] [[bp_; bq_]; [bq_; tNot bp_]] [bp_; tTrue] = ROk tt /\
  r_resolution_with_args [bq_] [[bq_; bp_]; [tNot bp_; bq_]] [bp_; tTrue] = ROk tt.
Proof. split; vm_compute; reflexivity. Qed.
(** a onepoint step with two points *)
Definition op_body (y : term) : term := TOp OAnd [tEq y bp_; tEq bq_ (TBind BForall [("z", SBool)] (TVar "z" SBool))].
Definition op_ra : rargs := mkRA [tEq (TBind BExists [("x", SBool)] (op_body (TVar "x" SBool))) (op_body bp_)] [] []
  [[AAssign ("x", SBool) bp_]] (Some [tEq (op_body (TVar "x" SBool)) (op_body bp_)]) [].
Example C38_onepoint_ok : forallb no_let (ra_concl op_ra) = true /\ r_onepoint_o (fun l => rev l) op_ra = ROk tt.
Proof. split; vm_compute; reflexivity. Qed.
