(** Soundness of the polynomial rules (R_Poly.v). *)
From Coq Require Import List String ZArith QArith Bool Arith Lia Field Permutation Lqa Zpow_facts Znumtheory.
From Verif Require Import Base Term Field Sem Sorting Rules R_Taut Utils Num R_LA R_Poly.
From Verif Require Import R_AC PolyeqSound CPSound.
Import ListNotations.
Local Open Scope nat_scope.

Lemma mon_eqb_eq a b : mon_eqb a b = true <-> a = b.
Proof. apply list_eqb_eq, term_eqb_eq. Qed.
(** congruence modulo 2^w *)
Definition cg (w : nat) (a b : Z) : Prop := (a mod 2 ^ Z.of_nat w = b mod 2 ^ Z.of_nat w)%Z.
Lemma cg_add w a a' b b' : cg w a a' -> cg w b b' -> cg w (a + b) (a' + b').
Proof. unfold cg. intros H1 H2. rewrite Zplus_mod, H1, H2, <- Zplus_mod. reflexivity. Qed.
Lemma cg_mul w a a' b b' : cg w a a' -> cg w b b' -> cg w (a * b) (a' * b').
Proof. unfold cg. intros H1 H2. rewrite Zmult_mod, H1, H2, <- Zmult_mod. reflexivity. Qed.
Lemma cg_sub w a a' b b' : cg w a a' -> cg w b b' -> cg w (a - b) (a' - b').
Proof. unfold cg. intros H1 H2. rewrite Zminus_mod, H1, H2, <- Zminus_mod. reflexivity. Qed.
Lemma cg_opp w a a' : cg w a a' -> cg w (- a) (- a').
Proof. intros H. apply (cg_sub w 0 0 a a' eq_refl H). Qed.
Lemma cg_refl w a : cg w a a. Proof. reflexivity. Qed.
Lemma cg_trans w a b c : cg w a b -> cg w b c -> cg w a c. Proof. unfold cg. congruence. Qed.
Lemma cg_sym w a b : cg w a b -> cg w b a. Proof. unfold cg. congruence. Qed.
Lemma cg_mod w a : cg w (bvmod w a) a.
Proof. unfold cg, bvmod. apply Z.mod_mod. pose proof (pow2_pos w). lia. Qed.

Section Val.
  Context {I : interp}.
  Add Field FPoly : (o_th (iF I)).
  Local Open Scope of_scope.
  (** comparison of monomials *)
  Variable meqb : monomial -> monomial -> bool.
  Hypothesis meqb_perm : forall a b, meqb a b = true -> Permutation a b.
  Variable srt : list term -> list term.
  Hypothesis srt_perm : forall l, Permutation (srt l) l.
  Section Av.
  (** the value of atoms *)
  Variable av : term -> iF I.
  Definition mval (m : monomial) : iF I := fold_right (fun t acc => av t * acc) 1 m.
  Definition psum (l : list (monomial * Q)) : iF I := fold_right (fun x acc => injQ (snd x) * mval (fst x) + acc) 0 l.
  Definition pval (p : poly) : iF I := psum (fst p) + injQ (snd p).
  Lemma psum_cons x l : psum (x :: l) = injQ (snd x) * mval (fst x) + psum l. Proof. reflexivity. Qed.
  Lemma psum_nil : psum [] = 0. Proof. reflexivity. Qed.
  Lemma mval_perm a b : Permutation a b -> mval a = mval b.
  Proof. induction 1; simpl; try congruence. ring. Qed.
  Lemma mval_app a b : mval (a ++ b)%list = mval a * mval b.
  Proof. induction a as [|t r IH]; simpl; [ring|]. rewrite IH. ring. Qed.
  Lemma mon_mul_val a b : mval (mon_mul srt a b) = mval a * mval b.
  Proof. unfold mon_mul. rewrite (mval_perm _ _ (srt_perm _)). apply mval_app. Qed.
  Lemma psum_perm l r : Permutation l r -> psum l = psum r.
  Proof. induction 1; simpl; try congruence. ring. Qed.
  Lemma psum_insert m k v old : im_get meqb m k = Some old ->
    psum (im_insert meqb m k v) = psum m + (injQ v - injQ old) * mval k.
  Proof.
    induction m as [|[a b] r IH]; simpl; [discriminate|]. destruct (meqb k a) eqn:Ek.
    - apply meqb_perm, mval_perm in Ek. intros H; injection H as <-. simpl. rewrite <- Ek. ring.
    - intros H. simpl. rewrite IH by exact H. ring.
  Qed.
  Lemma psum_insert_new m k v : im_get meqb m k = None ->
    psum (im_insert meqb m k v) = psum m + injQ v * mval k.
  Proof.
    induction m as [|[a b] r IH]; simpl; [intros _; ring|]. destruct (meqb k a) eqn:Ek; [discriminate|].
    intros H. simpl. rewrite IH by exact H. ring.
  Qed.
  Lemma psum_remove m k old : im_get meqb m k = Some old -> psum m = injQ old * mval k + psum (im_swap_remove meqb m k).
  Proof.
    induction m as [|[a b] r IH]; simpl; [discriminate|]. destruct (meqb k a) eqn:Ek.
    - apply meqb_perm, mval_perm in Ek. intros H; injection H as <-. rewrite Ek. f_equal. destruct r as [|x r]; [reflexivity|].
      apply psum_perm. symmetry. apply last_removelast_perm.
    - intros H. rewrite (IH H). simpl. ring.
  Qed.
  Lemma p_insert_val p k v : pval (p_insert meqb p k v) = pval p + injQ v * mval k.
  Proof.
    unfold p_insert. destruct (Qeq_bool v 0) eqn:Ev.
    - apply Qeq_bool_iff in Ev. rewrite (injQ_eq _ _ _ Ev), injQ_0. ring.
    - destruct (im_get meqb (fst p) k) as [old|] eqn:Eg.
      + destruct (Qeq_bool (old + v) 0) eqn:Es; unfold pval; cbn [fst snd].
        * apply Qeq_bool_iff in Es.
          rewrite (psum_remove _ _ _ Eg). assert (HV : injQ v = - injQ old :> iF I).
          { apply (injQ_eq (iF I)) in Es. rewrite injQ_add, injQ_0 in Es.
            transitivity ((injQ old + injQ v : iF I) - injQ old); [ring|]. rewrite Es. ring. }
          rewrite HV. ring.
        * rewrite (psum_insert _ _ _ _ Eg), injQ_add. ring.
      + unfold pval; cbn [fst snd]. rewrite (psum_insert_new _ _ _ Eg). ring.
  Qed.
  Lemma p_inserts_val l : forall p, pval (p_inserts meqb p l) = pval p + psum l.
  Proof.
    unfold p_inserts. induction l as [|x r IH]; intros p; cbn [fold_left]; [rewrite psum_nil; ring|]. rewrite IH, p_insert_val, psum_cons. ring.
  Qed.
  Lemma pval_const l q : pval (l, q) = psum l + injQ q. Proof. reflexivity. Qed.
  Lemma pval_parts p q : pval (fst p, (snd p + q)%Q) = pval p + injQ q.
  Proof. unfold pval. cbn [fst snd]. rewrite injQ_add. ring. Qed.
  Lemma psum_scale q l : psum (map (fun x => (fst x, (snd x * q)%Q)) l) = injQ q * psum l.
  Proof. induction l as [|x r IH]; cbn [map]; [rewrite psum_nil; ring|]. rewrite !psum_cons, IH. cbn [fst snd]. rewrite injQ_mul. ring. Qed.
  Lemma fold_insert_val (g : monomial * Q -> monomial) (q : Q) (G : iF I) l : (forall x, mval (g x) = G * mval (fst x)) -> forall r,
    pval (fold_left (fun r y => p_insert meqb r (g y) (q * snd y)%Q) l r) = pval r + injQ q * G * psum l.
  Proof.
    intros Hg. induction l as [|x l IH]; intros r; cbn [fold_left]; [rewrite psum_nil; ring|]. rewrite IH, p_insert_val, Hg, psum_cons, injQ_mul. ring.
  Qed.
  Lemma p_mul_val a b : pval (p_mul meqb srt a b) = pval a * pval b.
  Proof.
    unfold p_mul. rewrite pval_parts.
    assert (H1 : forall l r, pval (fold_left (fun r x => let r' := fold_left (fun r y => p_insert meqb r (mon_mul srt (fst x) (fst y)) (snd x * snd y)%Q) (fst b) r in
        p_insert meqb r' (fst x) (snd x * snd b)%Q) l r) = pval r + psum l * pval b).
    { induction l as [|x l IH]; intros r; cbn [fold_left]; [rewrite psum_nil; ring|]. cbn zeta. rewrite IH, p_insert_val.
      rewrite (fold_insert_val (fun y => mon_mul srt (fst x) (fst y)) (snd x) (mval (fst x))) by (intros y; apply mon_mul_val).
      rewrite psum_cons, injQ_mul. unfold pval. ring. }
    assert (H2 : forall l r, pval (fold_left (fun r y => p_insert meqb r (fst y) (snd y * snd a)%Q) l r) = pval r + injQ (snd a) * psum l).
    { induction l as [|x l IH]; intros r; cbn [fold_left]; [rewrite psum_nil; ring|]. rewrite IH, p_insert_val, psum_cons, injQ_mul. ring. }
    rewrite H2, H1, injQ_mul. unfold pval, p_new. cbn [fst snd]. rewrite psum_nil, injQ_0. ring.
  Qed.
  Lemma p_neg_val p : pval (p_neg p) = - pval p.
  Proof.
    unfold p_neg, pval. cbn [fst snd]. rewrite injQ_opp. assert (H : forall l, psum (map (fun x => (fst x, (- snd x)%Q)) l) = - psum l).
    { induction l as [|x r IH]; cbn [map]; [rewrite psum_nil; ring|]. rewrite !psum_cons, IH. cbn [fst snd]. rewrite injQ_opp. ring. }
    rewrite H. ring.
  Qed.
  Lemma p_sub_val a b : pval (p_sub meqb a b) = pval a - pval b.
  Proof.
    unfold p_sub. pose proof (p_neg_val b) as H. unfold pval at 1 in H. rewrite pval_parts, p_inserts_val.
    transitivity (pval a + (psum (fst (p_neg b)) + injQ (snd (p_neg b)))); [ring|]. rewrite H. ring.
  Qed.
  Lemma p_is_zero_val p : p_is_zero p = true -> pval p = 0.
  Proof.
    unfold p_is_zero, pval. destruct (fst p); [|discriminate]. intros H. apply Qeq_bool_iff in H. rewrite (injQ_eq _ _ _ H), injQ_0, psum_nil. ring.
  Qed.
  Lemma zero_eq a b : p_is_zero (p_sub meqb a b) = true -> pval a = pval b.
  Proof. intros H. apply p_is_zero_val in H. rewrite p_sub_val in H. transitivity (pval a - pval b + pval b); [ring|]. rewrite H. ring. Qed.
  Lemma p_new_val : pval p_new = 0.
  Proof. unfold p_new, pval. cbn [fst snd]. rewrite psum_nil, injQ_0. ring. Qed.
  (** reduction of the coefficients modulo n, for integer atoms *)
  Hypothesis av_int : forall t, exists z, av t = inj z.
  Lemma mval_int m : exists z, mval m = inj z.
  Proof.
    induction m as [|t r [z IH]]; [exists 1%Z; simpl; reflexivity|]. destruct (av_int t) as [y Hy]. exists (y * z)%Z. simpl. rewrite Hy, IH, inj_mul. auto.
  Qed.
  Lemma q_mod_int n q q' : q_mod n q = Some q' -> injQ q = inj (Qnumer q) :> iF I /\ injQ q' = inj (Qnumer q mod n) :> iF I.
  Proof.
    unfold q_mod. destruct (Qis_int q) eqn:E; [|discriminate]. intros H. injection H as <-. split; [apply injQ_int; auto|apply injQ_Z].
  Qed.
  Lemma p_modulo_val w p p' : p_modulo (2 ^ Z.of_nat w) p = Some p' -> exists z z', pval p = inj z /\ pval p' = inj z' /\ cg w z z'.
  Proof.
    unfold p_modulo. destruct (mod_coeffs (2 ^ Z.of_nat w) (fst p)) as [l|] eqn:El; [|discriminate]. destruct (q_mod (2 ^ Z.of_nat w) (snd p)) as [c|] eqn:Ec; [|discriminate].
    intros H. injection H as <-. unfold pval. cbn [fst snd]. apply q_mod_int in Ec. destruct Ec as [-> ->].
    assert (G : exists z z', psum (fst p) = inj z /\ psum l = inj z' /\ cg w z z').
    { clear - El av_int. revert l El. induction (fst p) as [|[m q] r IH]; intros l El; cbn [mod_coeffs] in El.
      - injection El as <-. exists 0%Z, 0%Z. repeat split; auto.
      - destruct (q_mod (2 ^ Z.of_nat w) q) as [c|] eqn:Ec; [|discriminate]. destruct (mod_coeffs (2 ^ Z.of_nat w) r) as [r'|]; [|discriminate]. injection El as <-.
        destruct (IH r' eq_refl) as [z [z' [H1 [H2 H3]]]]. apply q_mod_int in Ec. destruct Ec as [E1 E2]. destruct (mval_int m) as [y Hy].
        exists (Qnumer q * y + z)%Z, (Qnumer q mod 2 ^ Z.of_nat w * y + z')%Z. rewrite !psum_cons. cbn [fst snd]. rewrite E1, E2, Hy, H1, H2, <- !inj_mul, <- !inj_add.
        repeat split; auto. apply cg_add; auto. apply cg_mul; [|reflexivity]. apply cg_sym. apply (cg_mod w). }
    destruct G as [z [z' [-> [-> Hc]]]]. exists (z + Qnumer (snd p))%Z, (z' + Qnumer (snd p) mod 2 ^ Z.of_nat w)%Z. rewrite <- !inj_add. repeat split; auto.
    apply cg_add; auto. apply cg_sym, (cg_mod w).
  Qed.
  End Av.

  (** ** The value of terms *)
  Variable E : env I.
  Hypothesis HE : env_ok E.
  (** numeric terms, or bit-vectors *)
  Variable bvm : bool.
  Definition okS (s : sort) : bool := if bvm then is_bv_sort s else is_num_sort s.
  Definition av (t : term) : iF I := if bvm then inj (bvz (eval t E)) else nval E t.
  Definition tv (t : term) (x : iF I) : Prop :=
    if bvm then exists z, x = inj z /\ forall w, sort_of t = SBV w -> cg w z (bvz (eval t E)) else x = nval E t.
  Lemma tv_av t : tv t (av t).
  Proof. unfold tv, av. destruct bvm; auto. exists (bvz (eval t E)). split; auto. intros. apply cg_refl. Qed.
  Definition osum (l : list (iF I)) : iF I := fold_right oadd 0 l.
  Definition oprod (l : list (iF I)) : iF I := fold_right omul 1 l.
  Lemma tv_num l xs : bvm = false -> Forall2 tv l xs -> xs = map (nval E) l.
  Proof. intros Hb H. induction H as [|t x l xs Ht _ IH]; auto. unfold tv in Ht. rewrite Hb in Ht. cbn. congruence. Qed.
  Lemma tv_bv w l xs : bvm = true -> (forall t, In t l -> sort_of t = SBV w) -> Forall2 tv l xs ->
    exists zs, xs = map inj zs /\ Forall2 (fun t z => cg w z (bvz (eval t E))) l zs.
  Proof.
    intros Hb Hs H. induction H as [|t x l xs Ht _ IH]; [exists []; split; auto|]. destruct IH as [zs [-> Hz]]; [intros; apply Hs; right; auto|].
    unfold tv in Ht. rewrite Hb in Ht. destruct Ht as [z [-> Hz']]. exists (z :: zs). split; auto. constructor; auto. apply Hz', Hs. left. auto.
  Qed.
  Lemma osum_inj zs : osum (map inj zs) = inj (fold_right Z.add 0%Z zs).
  Proof. induction zs as [|z r IH]; cbn; [auto|]. unfold osum in IH. rewrite IH, <- inj_add. auto. Qed.
  Lemma oprod_inj zs : oprod (map inj zs) = inj (fold_right Z.mul 1%Z zs).
  Proof. induction zs as [|z r IH]; cbn; [auto|]. unfold oprod in IH. rewrite IH, <- inj_mul. auto. Qed.
  Lemma bv_val t w : wt t = true -> sort_of t = SBV w -> bvw (eval t E) = w /\ (0 <= bvz (eval t E) < 2 ^ Z.of_nat w)%Z /\ eval t E = VBV w (bvz (eval t E)).
  Proof.
    intros Hw Hs. pose proof (eval_dom t E Hw HE) as H. rewrite Hs in H. unfold idom, dom_ in H. destruct (eval t E) as [| |w' z| |]; try discriminate.
    rewrite !andb_true_iff, Nat.eqb_eq, Z.leb_le, Z.ltb_lt in H. destruct H as [[-> H1] H2]. cbn. auto.
  Qed.
  (** folds of bit-vector operators *)
  Lemma bv_fold (f : nat -> Z -> Z -> Z) (g : Z -> Z -> Z) w : (forall x y, cg w (f w x y) (g x y)) ->
    (forall a a' b b', cg w a a' -> cg w b b' -> cg w (g a b) (g a' b')) ->
    forall l zs, Forall2 (fun t z => cg w z (bvz (eval t E))) l zs -> forall v a, bvw v = w -> cg w a (bvz v) ->
    cg w (fold_left g zs a) (bvz (fold_left (bv2 f) (map (fun t => eval t E) l) v)).
  Proof.
    intros Hf Hg. induction 1 as [|t z l zs Ht _ IH]; intros v a Hv Ha; cbn [fold_left map]; auto. apply IH; auto. unfold bv2. cbn [bvz]. rewrite Hv.
    eapply cg_trans; [|apply cg_sym, Hf]. apply Hg; auto.
  Qed.
  Lemma fold_left_add zs : forall a, fold_left Z.add zs a = (a + fold_right Z.add 0 zs)%Z.
  Proof. induction zs as [|z r IH]; intros a; cbn; [lia|]. rewrite IH. lia. Qed.
  Lemma fold_left_mul zs : forall a, fold_left Z.mul zs a = (a * fold_right Z.mul 1 zs)%Z.
  Proof. induction zs as [|z r IH]; intros a; cbn; [lia|]. rewrite IH. lia. Qed.
  (** argument sorts *)
  Definition num_op (o : op) : bool := op_eqb o OAdd || op_eqb o OMult || op_eqb o OSub || op_eqb o OToReal || op_eqb o ORealDiv.
  Definition bv_op (o : op) : bool := op_eqb o OBvAdd || op_eqb o OBvMul || op_eqb o OBvSub || op_eqb o OBvNeg.
  Lemma num_op_args o args : num_op o = true -> wt (TOp o args) = true -> is_num_sort (sort_of (TOp o args)) = true /\ forall a, In a args -> is_num_sort (sort_of a) = true.
  Proof.
    unfold num_op. rewrite !orb_true_iff, !op_eqb_eq. intros Ho Hw. rewrite (wt_op_sort _ _ Hw). apply wt_op_args in Hw. destruct Hw as [_ Hw].
    assert (G : forallb is_num_sort (map sort_of args) = true -> forall a, In a args -> is_num_sort (sort_of a) = true).
    { intros H a Ha. rewrite forallb_forall in H. apply H, in_map, Ha. }
    destruct Ho as [[[[-> | ->]| ->]| ->]| ->]; cbn [op_wt op_sort] in *; try (apply andb_true_iff in Hw; destruct Hw as [_ Hw]; split; [destruct (existsb _ _); auto|auto]); [| ].
    - split; auto. apply sorts_are_eq in Hw. apply G. rewrite Hw. reflexivity.
    - apply andb_true_iff in Hw. split; auto. apply G, Hw.
  Qed.
  Lemma all_eq_In s ss : all_eq (s :: ss) = true -> forall x, In x ss -> x = s.
  Proof.
    revert s. induction ss as [|b r IH]; intros s H x Hx; [destruct Hx|]. cbn [all_eq] in H. apply andb_true_iff in H. destruct H as [H1 H2]. apply sort_eqb_eq in H1. subst b.
    destruct Hx as [->|Hx]; auto.
  Qed.
  Lemma bv_op_args o args : bv_op o = true -> wt (TOp o args) = true -> exists w, sort_of (TOp o args) = SBV w /\ (forall a, In a args -> sort_of a = SBV w) /\
    (if op_eqb o OBvNeg then exists a, args = [a] else exists a b r, args = a :: b :: r) /\ (o = OBvSub -> exists a b, args = [a; b]).
  Proof.
    unfold bv_op. rewrite !orb_true_iff, !op_eqb_eq. intros Ho Hw. rewrite (wt_op_sort _ _ Hw). apply wt_op_args in Hw. destruct Hw as [_ Hw].
    destruct Ho as [[[-> | ->]| ->]| ->].
    1,2: cbn [op_wt op_sort] in *; rewrite !andb_true_iff in Hw; destruct Hw as [[Hw1 Hw2] Hw3];
      (destruct args as [|a [|b r]]; [discriminate|discriminate|]); cbn [map forallb] in Hw2; apply andb_true_iff in Hw2; destruct Hw2 as [Hw2 _];
      (destruct (sort_of a) as [| | | | | | | | |w| |] eqn:Ea; try discriminate); exists w; (split; [cbn [map]; rewrite Ea; auto|]);
      (split; [|split; [exists a, b, r; auto|discriminate]]); intros x Hx; (destruct Hx as [<-|Hx]; [auto|]); cbn [map] in Hw3; rewrite Ea in Hw3;
      apply (all_eq_In _ _ Hw3); apply (in_map sort_of (b :: r)), Hx.
    - cbn [op_wt op_sort] in *. destruct args as [|a [|b [|c r]]]; try discriminate; cbn [map] in *. apply andb_true_iff in Hw. destruct Hw as [Hw1 Hw2]. apply sort_eqb_eq in Hw2.
      destruct (sort_of a) as [| | | | | | | | |w| |] eqn:Ea; try discriminate. exists w. split; auto. split; [intros x [<-|[<-|[]]]; congruence|]. split; [exists a, b, []; auto|intros _; exists a, b; auto].
    - cbn [op_wt op_sort] in *. destruct args as [|a [|b r]]; try discriminate; cbn [map] in *. destruct (sort_of a) as [| | | | | | | | |w| |] eqn:Ea; try discriminate.
      exists w. split; auto. split; [intros x [<-|[]]; auto|]. split; [exists a; auto|discriminate].
  Qed.
  Lemma mode_num o args : num_op o = true -> wt (TOp o args) = true -> okS (sort_of (TOp o args)) = true -> bvm = false /\ forall a, In a args -> okS (sort_of a) = true.
  Proof.
    intros Ho Hw Hs. destruct (num_op_args o args Ho Hw) as [H1 H2]. unfold okS in *. destruct bvm; auto. destruct (sort_of (TOp o args)); discriminate.
  Qed.
  Lemma mode_bv o args : bv_op o = true -> wt (TOp o args) = true -> okS (sort_of (TOp o args)) = true -> bvm = true /\ forall a, In a args -> okS (sort_of a) = true.
  Proof.
    intros Ho Hw Hs. destruct (bv_op_args o args Ho Hw) as [w [H1 [H2 _]]]. unfold okS in *. rewrite H1 in Hs. destruct bvm; [|discriminate]. split; auto. intros a Ha. rewrite (H2 a Ha). auto.
  Qed.
  Lemma args_ok o args : num_op o || bv_op o = true -> wt (TOp o args) = true -> okS (sort_of (TOp o args)) = true -> forall a, In a args -> okS (sort_of a) = true.
  Proof. intros Ho Hw Hs. apply orb_true_iff in Ho. destruct Ho as [Ho|Ho]; [apply (mode_num o)|apply (mode_bv o)]; auto. Qed.
  Lemma tv_add o args xs : (op_eqb o OAdd || op_eqb o OBvAdd) = true -> wt (TOp o args) = true -> okS (sort_of (TOp o args)) = true -> Forall2 tv args xs -> tv (TOp o args) (osum xs).
  Proof.
    rewrite orb_true_iff, !op_eqb_eq. intros [-> | ->] Hw Hs Hx.
    - destruct (mode_num OAdd args eq_refl Hw Hs) as [Hb _]. rewrite (tv_num _ _ Hb Hx). unfold tv. rewrite Hb. unfold nval at 2. cbn [eval eval_op num]. rewrite fold_add.
      clear. induction args as [|a r IH]; cbn; [ring|]. unfold osum in IH. rewrite IH. ring.
    - destruct (mode_bv OBvAdd args eq_refl Hw Hs) as [Hb _]. destruct (bv_op_args OBvAdd args eq_refl Hw) as [w [H1 [H2 [[a [b [r ->]]] _]]]].
      destruct (tv_bv w _ _ Hb H2 Hx) as [zs [-> Hz]]. unfold tv. rewrite Hb. exists (fold_right Z.add 0%Z zs). split; [apply osum_inj|]. intros w' Hw'. rewrite H1 in Hw'. injection Hw' as <-.
      inversion Hz as [|? z ? zs' Ha Hz']; subst. cbn [eval map eval_op bvbin fold1]. cbn [fold_right]. rewrite <- fold_left_add.
      apply (bv_fold (fun w x y => bvmod w (x + y)) Z.add w) with (l := b :: r); auto.
      + intros x y. apply cg_mod. + intros. apply cg_add; auto. + apply bv_val; [|apply H2; left; auto]. apply wt_op_args in Hw. destruct Hw as [Hw _]. apply andb_true_iff in Hw. apply Hw.
  Qed.
  Lemma tv_mul o args xs : (op_eqb o OMult || op_eqb o OBvMul) = true -> wt (TOp o args) = true -> okS (sort_of (TOp o args)) = true -> Forall2 tv args xs -> tv (TOp o args) (oprod xs).
  Proof.
    rewrite orb_true_iff, !op_eqb_eq. intros [-> | ->] Hw Hs Hx.
    - destruct (mode_num OMult args eq_refl Hw Hs) as [Hb _]. rewrite (tv_num _ _ Hb Hx). unfold tv. rewrite Hb. unfold nval at 2. cbn [eval eval_op num].
      assert (G : forall x, fold_left omul (map num (map (fun a => eval a E) args)) x = x * oprod (map (nval E) args)).
      { clear. induction args as [|a r IH]; intros x; cbn; [ring|]. rewrite IH. unfold oprod, nval. ring. }
      rewrite G. ring.
    - destruct (mode_bv OBvMul args eq_refl Hw Hs) as [Hb _]. destruct (bv_op_args OBvMul args eq_refl Hw) as [w [H1 [H2 [[a [b [r ->]]] _]]]].
      destruct (tv_bv w _ _ Hb H2 Hx) as [zs [-> Hz]]. unfold tv. rewrite Hb. exists (fold_right Z.mul 1%Z zs). split; [apply oprod_inj|]. intros w' Hw'. rewrite H1 in Hw'. injection Hw' as <-.
      inversion Hz as [|? z ? zs' Ha Hz']; subst. cbn [eval map eval_op bvbin fold1]. cbn [fold_right]. rewrite <- fold_left_mul.
      apply (bv_fold (fun w x y => bvmod w (x * y)) Z.mul w) with (l := b :: r); auto.
      + intros x y. apply cg_mod. + intros. apply cg_mul; auto. + apply bv_val; [|apply H2; left; auto]. apply wt_op_args in Hw. destruct Hw as [Hw _]. apply andb_true_iff in Hw. apply Hw.
  Qed.
  Lemma tv_neg o a x : (op_eqb o OSub || op_eqb o OBvNeg) = true -> wt (TOp o [a]) = true -> okS (sort_of (TOp o [a])) = true -> tv a x -> tv (TOp o [a]) (- x).
  Proof.
    rewrite orb_true_iff, !op_eqb_eq. intros [-> | ->] Hw Hs Hx.
    - destruct (mode_num OSub [a] eq_refl Hw Hs) as [Hb _]. unfold tv in *. rewrite Hb in *. subst. reflexivity.
    - destruct (mode_bv OBvNeg [a] eq_refl Hw Hs) as [Hb _]. destruct (bv_op_args OBvNeg [a] eq_refl Hw) as [w [H1 [H2 _]]]. unfold tv in *. rewrite Hb in *. destruct Hx as [z [-> Hz]].
      exists (- z)%Z. split; [symmetry; apply inj_opp|]. intros w' Hw'. rewrite H1 in Hw'. injection Hw' as <-. cbn [eval map eval_op bvz]. unfold bvneg.
      assert (Ha : wt a = true) by (apply wt_op_args in Hw; destruct Hw as [Hw _]; apply andb_true_iff in Hw; apply Hw). destruct (bv_val a w Ha (H2 a (or_introl eq_refl))) as [-> _].
      eapply cg_trans; [|apply cg_sym, cg_mod]. apply cg_opp. apply Hz, H2. left. auto.
  Qed.
  Lemma tv_sub o a r x xs : (op_eqb o OSub || op_eqb o OBvSub) = true -> r <> [] -> wt (TOp o (a :: r)) = true -> okS (sort_of (TOp o (a :: r))) = true -> tv a x -> Forall2 tv r xs -> tv (TOp o (a :: r)) (x - osum xs).
  Proof.
    rewrite orb_true_iff, !op_eqb_eq. intros [-> | ->] Hr Hw Hs Hx Hxs.
    - destruct (mode_num OSub (a :: r) eq_refl Hw Hs) as [Hb _]. rewrite (tv_num _ _ Hb Hxs). unfold tv in *. rewrite Hb in *. subst. destruct r as [|b r]; [congruence|].
      transitivity (nval E a - fold_right (fun a acc => nval E a + acc) 0 (b :: r)); [|rewrite <- fold_sub; reflexivity]. f_equal. generalize (b :: r). clear. induction l as [|c l IH]; cbn; auto. unfold osum in IH. rewrite IH. auto.
    - destruct (mode_bv OBvSub (a :: r) eq_refl Hw Hs) as [Hb _]. destruct (bv_op_args OBvSub (a :: r) eq_refl Hw) as [w [H1 [H2 [_ H3]]]]. destruct (H3 eq_refl) as [a' [b He]]. injection He as <- ->.
      inversion Hxs as [|? y ? ? Hy Hn]; subst. inversion Hn; subst. unfold tv in *. rewrite Hb in *. destruct Hx as [z [-> Hz]], Hy as [z' [-> Hz']]. exists (z - z')%Z. split; [cbn; rewrite inj_sub; ring|].
      intros w' Hw'. rewrite H1 in Hw'. injection Hw' as <-. cbn [eval map eval_op bvbin bin2]. unfold bv2. cbn [bvz].
      assert (Ha : wt a = true) by (apply wt_op_args in Hw; destruct Hw as [Hw _]; apply andb_true_iff in Hw; apply Hw). destruct (bv_val a w Ha (H2 a (or_introl eq_refl))) as [-> _].
      eapply cg_trans; [|apply cg_sym, cg_mod]. apply cg_sub; [apply Hz, H2; left|apply Hz', H2; right; left]; auto.
  Qed.

  (** ** add_term *)
  Notation PV := (pval av).
  Definition adds (f : term -> poly -> outcome poly) (q : Q) (t : term) : Prop :=
    forall p p', f t p = ROk p' -> exists x, tv t x /\ PV p' = PV p + injQ q * x.
  Lemma add_all_adds f q l : Forall (adds f q) l -> forall p p', p_add_all f l p = ROk p' -> exists xs, Forall2 tv l xs /\ PV p' = PV p + injQ q * osum xs.
  Proof.
    induction 1 as [|t l Ht _ IH]; intros p p' H; cbn [p_add_all] in H.
    - injection H as <-. exists []. split; auto. cbn. ring.
    - apply obind_ok in H. destruct H as [p1 [H1 H]]. destruct (Ht _ _ H1) as [x [Hx Hp1]]. destruct (IH _ _ H) as [xs [Hxs Hp2]]. exists (x :: xs). split; auto.
      rewrite Hp2, Hp1. unfold osum. cbn [fold_right]. ring.
  Qed.
  Lemma prod_val f l p' : Forall (fun t => forall p, f t = ROk p -> exists x, tv t x /\ PV p = x) l -> p_prod meqb srt f l = ROk p' -> exists xs, Forall2 tv l xs /\ PV p' = oprod xs.
  Proof.
    intros HF H. destruct l as [|a r]; [discriminate|]. cbn [p_prod] in H. inversion HF as [|? ? Ha Hr]; subst. apply obind_ok in H. destruct H as [p [Hp H]]. destruct (Ha _ Hp) as [x [Hx Hx']].
    assert (G : forall r acc y, Forall (fun t => forall p, f t = ROk p -> exists x, tv t x /\ PV p = x) r -> PV acc = y -> p_prod_from meqb srt f acc r = ROk p' ->
      exists xs, Forall2 tv r xs /\ PV p' = y * oprod xs).
    { clear - srt_perm meqb_perm. induction r as [|b r IH]; intros acc y HF Ha H; cbn [p_prod_from] in H.
      - injection H as <-. exists []. split; auto. cbn. rewrite Ha. ring.
      - inversion HF as [|? ? Hb Hr]; subst. apply obind_ok in H. destruct H as [p [Hp H]]. destruct (Hb _ Hp) as [x [Hx Hx']].
        destruct (IH (p_mul meqb srt acc p) (PV acc * x) Hr) as [xs [Hxs Hp']]; auto. { rewrite p_mul_val, Hx'. auto. }
        exists (x :: xs). split; auto. rewrite Hp'. unfold oprod. cbn [fold_right]. ring. }
    destruct (G r p x Hr Hx' H) as [xs [Hxs Hp']]. exists (x :: xs). split; auto.
  Qed.
  Lemma num_atom t : bvm = false -> av t = nval E t. Proof. unfold av. intros ->. auto. Qed.
  Lemma insert_atom t q p : exists x, tv t x /\ PV (p_insert meqb p [t] q) = PV p + injQ q * x.
  Proof. exists (av t). split; [apply tv_av|]. rewrite p_insert_val. cbn. ring. Qed.
  Lemma fraction_num t q : as_fraction t = ROk (Some q) -> wt t = true -> is_num_sort (sort_of t) = true.
  Proof.
    unfold as_fraction. destruct (op1 OSub t) as [x|] eqn:Ex.
    - apply op1_some in Ex. subst. intros _ Hw. exact (proj1 (num_op_args OSub [x] eq_refl Hw)).
    - unfold as_unsigned_fraction. intros H Hw. destruct (op2 OIntDiv t) as [[a b]|] eqn:E1; [apply op2_some in E1; subst; rewrite (wt_op_sort _ _ Hw); auto|].
      destruct (op2 ORealDiv t) as [[a b]|] eqn:E2; [apply op2_some in E2; subst; rewrite (wt_op_sort _ _ Hw); auto|]. injection H as H. destruct t as [[]| | | | | | |]; try discriminate; auto.
  Qed.
  Lemma other_adds q t : wt t = true -> okS (sort_of t) = true -> divs_exact t = true -> adds (fun t => p_other meqb t q) q t.
  Proof.
    intros Hw Hs Hd p p' H. unfold p_other in H. apply obind_ok in H. destruct H as [fr [Hf H]]. destruct fr as [r|].
    - injection H as <-. assert (Hb : bvm = false). { pose proof (fraction_num _ _ Hf Hw) as Hn. unfold okS in Hs. destruct bvm; auto. destruct (sort_of t); discriminate. }
      exists (nval E t). unfold tv. rewrite Hb. split; auto. rewrite pval_parts. unfold nval. rewrite (as_fraction_eval E _ _ Hf Hd). cbn [num]. rewrite injQ_mul. ring.
    - assert (A : exists x, tv t x /\ PV (p_insert meqb p [t] q) = PV p + injQ q * x) by apply insert_atom.
      destruct t as [[z|z|z|v w]| | | | | | |]; try (injection H as <-; exact A). injection H as <-. unfold okS in Hs. unfold tv. destruct bvm; [|discriminate].
      exists (inj v). split; [|rewrite pval_parts, injQ_mul, injQ_Z; ring]. exists v. split; auto. intros w' Hw'. injection Hw' as <-. cbn [eval eval_const bvz]. apply cg_sym, cg_mod.
  Qed.
  Lemma add_term_adds t : wt t = true -> okS (sort_of t) = true -> divs_exact t = true -> forall q, adds (fun t => p_add_term meqb srt t q) q t.
  Proof.
    induction t as [c|x s|f args IHf IHargs|o args IHargs|s|b vs t IHt|bs t IHbs IHt|o oargs args IHo IHargs] using term_ind';
      intros Hw Hs Hd q; try exact (other_adds q _ Hw Hs Hd).
    intros p p' H. cbn [p_add_term] in H.
    pose proof (other_adds q _ Hw Hs Hd p p') as HO. pose proof Hd as Hd0. apply divs_exact_op in Hd. rewrite forallb_forall in Hd.
    pose proof (proj1 (wt_op_args _ _ Hw)) as Hwa. rewrite forallb_forall in Hwa.
    assert (IHA : num_op o || bv_op o = true -> forall q, Forall (adds (fun t => p_add_term meqb srt t q) q) args).
    { intros Ho q0. apply Forall_forall. intros t Ht. rewrite Forall_forall in IHargs. apply IHargs; auto. apply (args_ok o args Ho Hw Hs t Ht). }
    destruct (op_eqb o OAdd || op_eqb o OBvAdd) eqn:E1.
    { assert (Ho : num_op o || bv_op o = true) by (apply orb_true_iff in E1; rewrite !op_eqb_eq in E1; destruct E1; subst; reflexivity).
      destruct (add_all_adds _ q args (IHA Ho q) p p' H) as [xs [Hxs Hp]]. exists (osum xs). split; auto. apply tv_add; auto. }
    destruct ((op_eqb o OSub || op_eqb o OBvNeg) && one_arg args) eqn:E2.
    { apply andb_true_iff in E2. destruct E2 as [E2 E2']. assert (Ho : num_op o || bv_op o = true) by (apply orb_true_iff in E2; rewrite !op_eqb_eq in E2; destruct E2; subst; reflexivity).
      destruct args as [|a [|? ?]]; try discriminate. destruct (add_all_adds _ (- q)%Q [a] (IHA Ho (- q)%Q) p p' H) as [xs [Hxs Hp]]. inversion Hxs as [|? x ? ? Hx Hn]; subst. inversion Hn; subst.
      exists (- x). split; [apply tv_neg; auto|]. rewrite Hp, injQ_opp. unfold osum. cbn [fold_right]. ring. }
    destruct (op_eqb o OSub || op_eqb o OBvSub) eqn:E3.
    { assert (Ho : num_op o || bv_op o = true) by (apply orb_true_iff in E3; rewrite !op_eqb_eq in E3; destruct E3; subst; reflexivity).
      destruct args as [|a r]; [discriminate|]. apply obind_ok in H. destruct H as [p1 [H1 H]].
      pose proof (IHA Ho q) as IH1. inversion IH1 as [|? ? IHa _]; subst. destruct (IHa _ _ H1) as [x [Hx Hp1]].
      pose proof (IHA Ho (- q)%Q) as IH2. inversion IH2 as [|? ? _ IHr]; subst. destruct (add_all_adds _ (- q)%Q r IHr _ _ H) as [xs [Hxs Hp2]].
      exists (x - osum xs). split; [|rewrite Hp2, Hp1, injQ_opp; ring]. apply tv_sub; auto. intros ->. apply orb_true_iff in E3. rewrite !op_eqb_eq in E3. destruct E3 as [-> | ->]; [discriminate E2|].
      apply wt_op_args in Hw. destruct Hw as [_ Hw]. cbn in Hw. discriminate. }
    destruct (op_eqb o OMult || op_eqb o OBvMul) eqn:E4.
    { assert (Ho : num_op o || bv_op o = true) by (apply orb_true_iff in E4; rewrite !op_eqb_eq in E4; destruct E4; subst; reflexivity).
      apply obind_ok in H. destruct H as [r [Hr H]]. injection H as <-. destruct (prod_val (fun a => p_add_term meqb srt a 1%Q p_new) args r) as [xs [Hxs Hp]]; auto.
      - apply Forall_forall. intros t Ht p0 H0. specialize (IHA Ho 1%Q). rewrite Forall_forall in IHA. destruct (IHA t Ht _ _ H0) as [x [Hx Hx']]. exists x. split; auto. rewrite Hx', p_new_val, injQ_1. ring.
      - exists (oprod xs). split; [apply tv_mul; auto|]. rewrite pval_parts, p_inserts_val, psum_scale, injQ_mul, <- Hp. unfold pval. ring. }
    destruct (op_eqb o ORealDiv) eqn:E5.
    { apply op_eqb_eq in E5. subst o. destruct args as [|a [|b [|c r]]]; auto. apply obind_ok in H. destruct H as [fr [Hf H]]. destruct fr as [r|]; auto.
      destruct (Qeq_bool r 0) eqn:Er; [injection H as <-; apply insert_atom|]. destruct (mode_num ORealDiv [a; b] eq_refl Hw Hs) as [Hb _].
      specialize (IHA eq_refl (q / r)%Q). inversion IHA as [|? ? IHa _]; subst. destruct (IHa _ _ H) as [x [Hx Hp]]. unfold tv in *. rewrite Hb in *. subst x.
      assert (Eb : nval E b = injQ r). { unfold nval. rewrite (as_fraction_eval E _ _ Hf); auto. apply Hd. right. left. auto. }
      exists (nval E (TOp ORealDiv [a; b])). split; auto. rewrite Hp. unfold nval at 2. cbn [eval map eval_op fold1 fold_left]. unfold rdiv. fold (nval E a). fold (nval E b). rewrite Eb.
      rewrite <- (injQ_0 (iF I)), injQ_eqb, Er. cbn [num]. apply Qeq_bool_false in Er. rewrite (injQ_div _ _ _ Er). assert ((injQ r : iF I) <> 0). { intros Hr. apply Er. apply (injQ_inj (iF I)). rewrite Hr, injQ_0. auto. }
      field. auto. }
    destruct (op_eqb o OToReal) eqn:E6.
    { apply op_eqb_eq in E6. subst o. destruct args as [|a r]; [discriminate|]. destruct (mode_num OToReal (a :: r) eq_refl Hw Hs) as [Hb _]. specialize (IHA eq_refl q). inversion IHA as [|? ? IHa _]; subst.
      destruct (IHa _ _ H) as [x [Hx Hp]]. unfold tv in *. rewrite Hb in *. subst x. exists (nval E a). split; auto. apply wt_op_args in Hw. destruct Hw as [_ Hw]. cbn [op_wt] in Hw. apply sorts_are_eq in Hw. destruct r; [|discriminate]. reflexivity. }
    destruct (op_eqb o OIntDiv) eqn:E7; auto.
    apply op_eqb_eq in E7. subst o. destruct args as [|a [|b [|c r]]]; auto. apply obind_ok in H. destruct H as [fr [Hf H]]. destruct fr as [r|]; auto.
    destruct (Qeq_bool r 0); auto. injection H as <-. apply insert_atom.
  Qed.
  Lemma from_term_tv t p : wt t = true -> okS (sort_of t) = true -> divs_exact t = true -> p_from_term meqb srt t = ROk p -> tv t (PV p).
  Proof.
    intros H1 H2 H3 H. destruct (add_term_adds t H1 H2 H3 1%Q _ _ H) as [x [Hx Hp]]. rewrite p_new_val, injQ_1 in Hp. replace (PV p) with x; auto. rewrite Hp. ring.
  Qed.
End Val.

(** ** poly_simp *)
Definition poly_ok (c : clause) (ps : list clause) (_ : list term) : bool := forallb (forallb divs_exact) (c :: ps).
Lemma psimp_atom meqb srt t p : wt t = true -> is_num_sort (sort_of t) = false -> is_bv_sort (sort_of t) = false -> p_from_term meqb srt t = ROk p -> p = ([([t], 1%Q)], 0%Q).
Proof.
  intros Hw Hn Hb H. unfold p_from_term in H.
  assert (HO : forall p', p_other meqb t 1%Q p_new = ROk p' -> p' = ([([t], 1%Q)], 0%Q)).
  { intros p' H0. unfold p_other in H0. apply obind_ok in H0. destruct H0 as [fr [Hf H0]]. destruct fr as [r|].
    - pose proof (fraction_num _ _ Hf Hw) as Hc. rewrite Hn in Hc. discriminate Hc.
    - destruct t as [[]| | | | | | |]; try discriminate Hb; exact (eq_sym (f_equal (fun o => match o with ROk p => p | _ => p' end) H0)). }
  destruct t as [c|x s|f args|o args|s|b vs t|bs t|o oargs args]; try (apply HO; exact H). cbn [p_add_term] in H.
  assert (Hno : num_op o = false). { destruct (num_op o) eqn:Eo; auto. rewrite (proj1 (num_op_args o args Eo Hw)) in Hn. discriminate. }
  assert (Hbo : bv_op o = false). { destruct (bv_op o) eqn:Eo; auto. destruct (bv_op_args o args Eo Hw) as [w [Hs _]]. rewrite Hs in Hb. discriminate. }
  assert (Hdo : op_eqb o OIntDiv = false). { destruct (op_eqb o OIntDiv) eqn:Eo; auto. apply op_eqb_eq in Eo. subst. rewrite (wt_op_sort _ _ Hw) in Hn. discriminate. }
  unfold num_op in Hno. unfold bv_op in Hbo. repeat match goal with H : _ || _ = false |- _ => apply orb_false_iff in H; destruct H end.
  repeat match goal with H0 : op_eqb o _ = false |- _ => rewrite H0 in H; clear H0 end. cbn in H. auto.
Qed.
Lemma atom_zero meqb t s : (forall a b, meqb a b = true -> Permutation a b) -> p_is_zero (p_sub meqb ([([t], 1%Q)], 0%Q) ([([s], 1%Q)], 0%Q)) = true -> t = s.
Proof.
  intros Hm. unfold p_is_zero, p_sub, p_neg, p_inserts. cbn [map fst snd fold_left]. unfold p_insert. cbn [fst snd im_get]. change (Qeq_bool (- (1)) 0) with false. cbn iota.
  destruct (meqb [s] [t]) eqn:Est; [intros _; apply Hm, Permutation_length_1 in Est; auto|]. cbn. rewrite Est. cbn. discriminate.
Qed.
Lemma odd_cancel w c x : Z.odd c = true -> cg w (c * x) 0 -> cg w x 0.
Proof.
  intros Hc H. unfold cg in *. rewrite Z.mod_0_l in * by (pose proof (pow2_pos w); lia). apply Z.mod_divide in H; [|pose proof (pow2_pos w); lia].
  apply Z.mod_divide; [pose proof (pow2_pos w); lia|]. apply Znumtheory.Gauss with (b := c); auto. apply Znumtheory.rel_prime_sym. apply rel_prime_Zpower_r; [lia|].
  apply Z.odd_spec in Hc. destruct Hc as [k ->]. apply Znumtheory.bezout_rel_prime. apply (Znumtheory.Bezout_intro _ _ _ 1 (- k)). lia.
Qed.
Lemma eqv_iff {I} (E : env I) a b : holds E (TOp OEquals [a; b]) = true <-> eval a E = eval b E.
Proof. rewrite holds_eq'. apply veqb_eq. Qed.
Theorem poly_simp_sound meqb srt c ps args : (forall a b, meqb a b = true -> Permutation a b) -> (forall l, Permutation (srt l) l) -> r_poly_simp meqb srt c ps args = ROk tt -> forallb divs_exact c = true -> clause_wt c = true ->
  forallb clause_wt ps = true -> entails ps c.
Proof.
  intros Hmq Hsrt H Hok Hw _ I E HE _. unfold r_poly_simp in H. apply obind_ok in H. destruct H as [u [Hl H]]. apply len_is_ok, len1 in Hl. destruct Hl as [g ->].
  cbn [idx nth_error unwrap obind] in H. cbn [forallb] in Hok. rewrite andb_true_r in Hok. apply obind_ok in H. destruct H as [[t s] [Ht H]]. apply m_op2_ok in Ht. cbn [fst snd] in Ht. subst g.
  apply obind_ok in H. destruct H as [p [Hp H]]. apply obind_ok in H. destruct H as [q [Hq H]]. cbn [fst snd] in *.
  unfold clause_wt in Hw. cbn [forallb] in Hw. rewrite andb_true_r in Hw. apply bool_term_wt, eq_args_wt in Hw. destruct Hw as [Wt [Ws Wst]].
  apply divs_exact_op in Hok. cbn [forallb] in Hok. rewrite !andb_true_iff in Hok. destruct Hok as [Dt [Ds _]].
  exists (TOp OEquals [t; s]). split; [left; auto|]. apply eqv_iff.
  destruct (is_num_sort (sort_of t)) eqn:En.
  - assert (Hz : p_is_zero (p_sub meqb p q) = true) by (destruct (sort_of t); try discriminate En; apply rassert_ok in H; auto).
    pose proof (from_term_tv meqb Hmq srt Hsrt E HE false t p Wt En Dt Hp) as Vt.
    pose proof (from_term_tv meqb Hmq srt Hsrt E HE false s q Ws (eq_trans (f_equal is_num_sort (eq_sym Wst)) En) Ds Hq) as Vs.
    unfold tv in Vt, Vs. rewrite (num_term_eval E t HE), (num_term_eval E s HE); [|unfold num_term; rewrite <- Wst, Ws; auto|unfold num_term; rewrite Wt; auto].
    rewrite <- Vt, <- Vs. f_equal. apply (zero_eq meqb Hmq). auto.
  - destruct (is_bv_sort (sort_of t)) eqn:Eb.
    + destruct (sort_of t) as [| | | | | | | | |w| |] eqn:Est; try discriminate. apply obind_ok in H. destruct H as [p' [Hp' H]]. apply obind_ok in H. destruct H as [q' [Hq' H]]. apply rassert_ok in H.
      destruct (p_modulo (2 ^ Z.of_nat w) p) as [p1|] eqn:Ep; [|discriminate]. injection Hp' as ->. destruct (p_modulo (2 ^ Z.of_nat w) q) as [q1|] eqn:Eq; [|discriminate]. injection Hq' as ->.
      assert (Okt : okS true (sort_of t) = true) by (rewrite Est; auto). assert (Oks : okS true (sort_of s) = true) by (rewrite <- Wst; auto).
      pose proof (from_term_tv meqb Hmq srt Hsrt E HE true t p Wt Okt Dt Hp) as Vt. pose proof (from_term_tv meqb Hmq srt Hsrt E HE true s q Ws Oks Ds Hq) as Vs.
      destruct Vt as [zt [Vt Ct]], Vs as [zs [Vs Cs]]. specialize (Ct w Est). specialize (Cs w (eq_sym Wst)).
      assert (Hav : forall t, exists z, av E true t = inj z) by (intros t0; exists (bvz (eval t0 E)); auto).
      destruct (p_modulo_val _ Hav w _ _ Ep) as [z1 [z1' [A1 [A2 A3]]]]. destruct (p_modulo_val _ Hav w _ _ Eq) as [z2 [z2' [B1 [B2 B3]]]].
      apply (zero_eq meqb Hmq (av E true)) in H. rewrite A2, B2 in H. apply inj_inj in H. subst z2'. rewrite A1 in Vt. apply inj_inj in Vt. rewrite B1 in Vs. apply inj_inj in Vs. subst.
      destruct (bv_val E HE t w Wt Est) as [_ [R1 ->]]. destruct (bv_val E HE s w Ws (eq_sym Wst)) as [_ [R2 ->]]. f_equal.
      assert (C : cg w (bvz (eval t E)) (bvz (eval s E))). { eapply cg_trans; [apply cg_sym, Ct|]. eapply cg_trans; [apply A3|]. eapply cg_trans; [apply cg_sym, B3|]. auto. }
      unfold cg in C. rewrite !Z.mod_small in C by lia. auto.
    + rewrite (psimp_atom meqb srt t p Wt En Eb Hp) in H. rewrite (psimp_atom meqb srt s q Ws) in H; auto; [|rewrite <- Wst; auto..].
      assert (Hz : p_is_zero (p_sub meqb ([([t], 1%Q)], 0%Q) ([([s], 1%Q)], 0%Q)) = true) by (destruct (sort_of t); try discriminate; apply rassert_ok in H; auto). apply (atom_zero meqb) in Hz; auto. subst. auto.
Qed.

(** ** poly_simp_rel *)
Section Rel.
  Context {I : interp}.
  Add Field FRel : (o_th (iF I)).
  Local Open Scope of_scope.
  Lemma scale_le (k x1 x2 y1 y2 : iF I) : 0 < k -> y2 - y1 = k * (x2 - x1) -> oleb x1 x2 = oleb y1 y2.
  Proof.
    intros Hk H. destruct (oleb x1 x2) eqn:E1.
    - symmetry. change (y1 <= y2). apply le_sub. rewrite H. apply mul_nonneg; [apply lt_le; auto|]. apply le_sub in E1. auto.
    - destruct (oleb y1 y2) eqn:E2; auto. exfalso. assert (L : x1 <= x2); [|unfold ole in L; congruence]. apply le_sub. apply le_sub in E2. rewrite H in E2.
      apply (mul_le_cancel _ _ _ k); auto. replace (k * 0) with (0 : iF I) by ring. auto.
  Qed.
  Lemma same_sign (c1 c2 : Q) : Qeq_bool c1 0 = false -> Qeq_bool c2 0 = false -> Bool.eqb (negb (Qle_bool c1 0)) (negb (Qle_bool c2 0)) = true -> (0 : iF I) < injQ (c1 / c2).
  Proof.
    intros H1 H2 H. apply Qeq_bool_false in H1, H2. rewrite <- (injQ_0 (iF I)). apply injQ_lt. apply eqb_prop in H.
    destruct (Qle_bool c1 0) eqn:L1, (Qle_bool c2 0) eqn:L2; try discriminate.
    - apply Qle_bool_iff in L1, L2. assert (E : (c1 / c2 == (- c1) / (- c2))%Q) by (field; auto).
      rewrite E. apply Qlt_shift_div_l; lra || (destruct (Qle_lt_or_eq _ _ L1), (Qle_lt_or_eq _ _ L2); try contradiction; lra).
    - assert (M1 : ~ (c1 <= 0)%Q) by (intros M; apply Qle_bool_iff in M; congruence). assert (M2 : ~ (c2 <= 0)%Q) by (intros M; apply Qle_bool_iff in M; congruence).
      apply Qlt_shift_div_l; lra.
  Qed.
  Lemma real_diff_ok (E : env I) t x y : real_diff t = ROk (x, y) -> wt t = true -> divs_exact t = true -> nval E t = nval E x - nval E y /\ num_term x = true /\ num_term y = true.
  Proof.
    assert (G : forall u, wt (TOp OSub [x; y]) = true -> u = nval E (TOp OSub [x; y]) -> u = nval E x - nval E y /\ num_term x = true /\ num_term y = true).
    { intros u Hw ->. split; [reflexivity|]. destruct (num_op_args OSub [x; y] eq_refl Hw) as [_ Hn]. unfold num_term. rewrite (wt_arg _ _ x Hw), (wt_arg _ _ y Hw) by (cbn; auto). rewrite !Hn by (cbn; auto). auto. }
    unfold real_diff. intros H Hw _. destruct (op1 OToReal t) as [d|] eqn:Ed.
    - apply op1_some in Ed. subst t. destruct (op2 OSub d) as [xy|] eqn:Exy; [|apply m_op2_ok in H; discriminate]. injection H as ->. apply op2_some in Exy. subst d. apply G; [|reflexivity].
      apply (wt_arg _ _ _ Hw). left. auto.
    - apply m_op2_ok in H. cbn [fst snd] in H. subst t. apply G; auto.
  Qed.
End Rel.
Lemma prem_one {I} (E : env I) ps p prem : idx ps 0 = ROk p -> premise_term p = ROk prem -> (forall p, In p ps -> clause_holds E p) -> forallb clause_wt ps = true ->
  holds E prem = true /\ bool_term prem = true /\ p = [prem] /\ In p ps.
Proof.
  intros Hi Hp H Hw. destruct ps as [|q r]; [discriminate|]. injection Hi as ->. apply premise_term_ok in Hp. subst p. cbn [forallb] in Hw. apply andb_true_iff in Hw. destruct Hw as [Hw _].
  unfold clause_wt in Hw. cbn [forallb] in Hw. rewrite andb_true_r in Hw. destruct (H [prem] (or_introl eq_refl)) as [l [[<-|[]] Hl]]. repeat split; auto. left. auto.
Qed.
Lemma bv_sub_val {I} (E : env I) x y w : env_ok E -> wt (TOp OBvSub [x; y]) = true -> sort_of (TOp OBvSub [x; y]) = SBV w ->
  wt x = true /\ wt y = true /\ sort_of x = SBV w /\ sort_of y = SBV w /\ cg w (bvz (eval (TOp OBvSub [x; y]) E)) (bvz (eval x E) - bvz (eval y E)).
Proof.
  intros HE Hw Hs. destruct (bv_op_args OBvSub [x; y] eq_refl Hw) as [w' [H1 [H2 _]]]. rewrite Hs in H1. injection H1 as <-.
  assert (Wx : wt x = true) by (apply (wt_arg _ _ x Hw); cbn; auto). assert (Wy : wt y = true) by (apply (wt_arg _ _ y Hw); cbn; auto). repeat split; auto; try (apply H2; cbn; auto).
  cbn [eval map eval_op bvbin bin2]. unfold bv2. cbn [bvz]. destruct (bv_val E HE x w Wx (H2 x (or_introl eq_refl))) as [-> _]. apply cg_mod.
Qed.
Lemma bv_mul_val {I} (E : env I) x y w : env_ok E -> wt (TOp OBvMul [x; y]) = true -> sort_of (TOp OBvMul [x; y]) = SBV w ->
  wt x = true /\ wt y = true /\ sort_of x = SBV w /\ sort_of y = SBV w /\ cg w (bvz (eval (TOp OBvMul [x; y]) E)) (bvz (eval x E) * bvz (eval y E)).
Proof.
  intros HE Hw Hs. destruct (bv_op_args OBvMul [x; y] eq_refl Hw) as [w' [H1 [H2 _]]]. rewrite Hs in H1. injection H1 as <-.
  assert (Wx : wt x = true) by (apply (wt_arg _ _ x Hw); cbn; auto). assert (Wy : wt y = true) by (apply (wt_arg _ _ y Hw); cbn; auto). repeat split; auto; try (apply H2; cbn; auto).
  cbn [eval map eval_op bvbin fold1 fold_left]. unfold bv2. cbn [bvz]. destruct (bv_val E HE x w Wx (H2 x (or_introl eq_refl))) as [-> _]. apply cg_mod.
Qed.
Lemma bv_diff_some t c x y : bv_diff t = Some (c, (x, y)) -> t = TOp OBvMul [c; TOp OBvSub [x; y]].
Proof.
  unfold bv_diff. destruct (op2 OBvMul t) as [[a d]|] eqn:E1; [|discriminate]. destruct (op2 OBvSub d) as [xy|] eqn:E2; [|discriminate]. intros H. injection H as -> ->.
  apply op2_some in E1, E2. subst. auto.
Qed.
(** [c * (x - y)] vanishes exactly when x = y, for odd c *)
Lemma bv_diff_zero {I} (E : env I) c x y w : env_ok E -> wt (TOp OBvMul [c; TOp OBvSub [x; y]]) = true -> sort_of (TOp OBvMul [c; TOp OBvSub [x; y]]) = SBV w ->
  bv_odd c = ROk tt -> (holds E (TOp OEquals [x; y]) = true <-> bvz (eval (TOp OBvMul [c; TOp OBvSub [x; y]]) E) = 0%Z).
Proof.
  intros HE Hw Hs Ho. pose proof (bv_val E HE _ w Hw Hs) as [_ [R _]]. destruct (bv_mul_val E c _ w HE Hw Hs) as [Wc [Wd [Sc [Sd Cm]]]]. destruct (bv_sub_val E x y w HE Wd Sd) as [Wx [Wy [Sx [Sy Cs]]]].
  destruct (bv_val E HE x w Wx Sx) as [_ [Rx Ex]]. destruct (bv_val E HE y w Wy Sy) as [_ [Ry Ey]].
  unfold bv_odd in Ho. destruct c as [[z|z|z|v w']| | | | | | |]; try discriminate. apply rassert_ok in Ho. injection Sc as ->.
  assert (C : cg w (bvz (eval (TOp OBvMul [TConst (CBV v w); TOp OBvSub [x; y]]) E)) (v * (bvz (eval x E) - bvz (eval y E)))).
  { eapply cg_trans; [apply Cm|]. apply cg_mul; auto. apply cg_mod. }
  rewrite eqv_iff. split; intros H.
  - rewrite H in C. replace (v * (bvz (eval y E) - bvz (eval y E)))%Z with 0%Z in C by lia. unfold cg in C. rewrite !Z.mod_small in C by lia. auto.
  - rewrite H in C. apply cg_sym, odd_cancel in C; auto. rewrite Ex, Ey. f_equal. assert (C2 : cg w (bvz (eval x E)) (bvz (eval y E))).
    { replace (bvz (eval x E)) with ((bvz (eval x E) - bvz (eval y E)) + bvz (eval y E))%Z by lia. apply (cg_add w _ 0 _ (bvz (eval y E)) C). reflexivity. }
    unfold cg in C2. rewrite !Z.mod_small in C2 by lia. auto.
Qed.
Lemma oeqb_le {I : interp} (x y : iF I) : oeqb x y = oleb x y && oleb y x.
Proof.
  destruct (oeqb x y) eqn:E1.
  - apply oeqb_eq in E1. subst. symmetry. apply andb_true_iff. split; apply (le_refl (iF I)).
  - destruct (oleb x y && oleb y x) eqn:E2; auto. apply andb_true_iff in E2. destruct E2 as [L1 L2]. rewrite (proj2 (oeqb_eq _ x y) (le_antisym (iF I) x y L1 L2)) in E1. auto.
Qed.
Section RelSound.
  Context {I : interp}.
  Add Field FRel2 : (o_th (iF I)).
  Local Open Scope of_scope.
  Lemma rel_same (E : env I) o x1 x2 y1 y2 c1 c2 : env_ok E -> rel_op o = true -> num_term x1 = true -> num_term x2 = true -> num_term y1 = true -> num_term y2 = true ->
    Qeq_bool c1 0 = false -> Qeq_bool c2 0 = false -> op_eqb o OEquals || Bool.eqb (negb (Qle_bool c1 0)) (negb (Qle_bool c2 0)) = true ->
    injQ c1 * (nval E x1 - nval E x2) = injQ c2 * (nval E y1 - nval E y2) -> holds E (TOp OEquals [TOp o [x1; x2]; TOp o [y1; y2]]) = true.
  Proof.
    intros HE Ho N1 N2 N3 N4 Hc1 Hc2 Hsg H.
    assert (Z1 : (injQ c1 : iF I) <> 0) by (apply Qeq_bool_false in Hc1; intros Hr; apply Hc1; apply (injQ_inj (iF I)); rewrite Hr, injQ_0; auto).
    assert (Z2 : (injQ c2 : iF I) <> 0) by (apply Qeq_bool_false in Hc2; intros Hr; apply Hc2; apply (injQ_inj (iF I)); rewrite Hr, injQ_0; auto).
    apply eqv_iff. destruct (op_eqb o OEquals) eqn:Eo.
    - apply op_eqb_eq in Eo. subst o. cbn [eval map eval_op chain]. rewrite !andb_true_r. rewrite !num_veqb; auto. f_equal.
      destruct (oeqb (nval E x1) (nval E x2)) eqn:E1; symmetry.
      + apply oeqb_eq in E1. apply oeqb_eq. rewrite E1 in H. assert (M : injQ c2 * (nval E y1 - nval E y2) = 0) by (rewrite <- H; ring). apply mul_eq_0 in M. destruct M as [M|M]; [contradiction|].
        transitivity (nval E y1 - nval E y2 + nval E y2); [ring|]. rewrite M. ring.
      + destruct (oeqb (nval E y1) (nval E y2)) eqn:E2; auto. apply oeqb_eq in E2. rewrite E2 in H. assert (M : injQ c1 * (nval E x1 - nval E x2) = 0) by (rewrite H; ring). apply mul_eq_0 in M. destruct M as [M|M]; [contradiction|].
        rewrite <- E1. symmetry. apply oeqb_eq. transitivity (nval E x1 - nval E x2 + nval E x2); [ring|]. rewrite M. ring.
    - cbn [orb] in Hsg. pose proof (same_sign (I := I) c1 c2 Hc1 Hc2 Hsg) as Hk. set (k := injQ (c1 / c2) : iF I) in *. apply Qeq_bool_false in Hc2.
      assert (K : nval E y1 - nval E y2 = k * (nval E x1 - nval E x2)).
      { unfold k. rewrite injQ_div by auto. transitivity ((injQ c2 * (nval E y1 - nval E y2)) / injQ c2); [field; auto|]. rewrite <- H. field. auto. }
      assert (K1 : oleb (nval E x2) (nval E x1) = oleb (nval E y2) (nval E y1)) by (apply (scale_le k); auto).
      assert (K2 : oleb (nval E x1) (nval E x2) = oleb (nval E y1) (nval E y2)).
      { apply (scale_le k); auto. transitivity (- (nval E y1 - nval E y2)); [ring|]. rewrite K. ring. }
      unfold rel_op in Ho. rewrite !orb_true_iff, !op_eqb_eq in Ho. destruct Ho as [[[[-> | ->]| ->]| ->]| ->]; try discriminate Eo; cbn [eval map eval_op chain]; rewrite !andb_true_r;
        unfold oltb, nval in *; rewrite ?K1, ?K2; auto.
  Qed.
End RelSound.
Theorem poly_simp_rel_sound c ps args : r_poly_simp_rel c ps args = ROk tt -> forallb (forallb divs_exact) ps = true -> clause_wt c = true ->
  forallb clause_wt ps = true -> entails ps c.
Proof.
  intros H Hd Hw Hps I E HE HP. unfold r_poly_simp_rel in H. apply obind_ok in H. destruct H as [u [_ H]]. apply obind_ok in H. destruct H as [u' [Hl H]]. apply len_is_ok, len1 in Hl. destruct Hl as [g ->].
  apply obind_ok in H. destruct H as [p [Hp H]]. apply obind_ok in H. destruct H as [prem [Hpr H]]. cbn [idx nth_error unwrap obind] in H.
  destruct (prem_one E ps p prem Hp Hpr HP Hps) as [HT [WT [-> HIn]]]. clear Hp Hpr. rewrite forallb_forall in Hd. specialize (Hd _ HIn). cbn [forallb] in Hd. rewrite andb_true_r in Hd.
  exists g. split; [left; auto|].
  destruct (bv_case prem) as [[[c1 [x1 x2]] [c2 [y1 y2]]]|] eqn:Ebv.
  - unfold bv_case in Ebv. destruct (op2 OEquals prem) as [[a b]|] eqn:Ep; [|discriminate]. apply op2_some in Ep. subst prem. destruct (bv_diff a) as [da|] eqn:Ea; [|discriminate]. destruct (bv_diff b) as [db|] eqn:Eb; [|discriminate].
    injection Ebv as -> ->. apply bv_diff_some in Ea, Eb. subst a b. apply obind_ok in H. destruct H as [[] [O1 H]]. apply obind_ok in H. destruct H as [[] [O2 H]].
    apply obind_ok in H. destruct H as [[a b] [Ha H]]. apply m_op2_ok in Ha. cbn [fst snd] in *. subst g. apply obind_ok in H. destruct H as [[l1 l2] [Ha H]]. apply m_op2_ok in Ha. cbn [fst snd] in *. subst a.
    apply obind_ok in H. destruct H as [[r1 r2] [Ha H]]. apply m_op2_ok in Ha. cbn [fst snd] in *. subst b. apply obind_ok in H. destruct H as [v1 [T1 H]]. apply obind_ok in H. destruct H as [v2 [T2 H]]. apply obind_ok in H. destruct H as [v3 [T3 T4]].
    apply teq_ok in T1, T2, T3, T4. subst. apply bool_term_wt, eq_args_wt in WT. destruct WT as [W1 [W2 W3]]. apply eqv_iff in HT.
    destruct (bv_op_args OBvMul _ eq_refl W1) as [w [S1 _]]. pose proof (bv_diff_zero E c1 x1 x2 w HE W1 S1 O1) as Z1. pose proof (bv_diff_zero E c2 y1 y2 w HE W2 (eq_trans (eq_sym W3) S1) O2) as Z2.
    apply eqv_iff. rewrite HT in Z1. rewrite <- Z2 in Z1. cbn [eval map eval_op chain] in *. unfold holds in Z1. cbn [eval map eval_op chain truth] in Z1. f_equal.
    destruct (veqb (eval x1 E) (eval x2 E)), (veqb (eval y1 E) (eval y2 E)); cbn in *; auto; [symmetry|]; apply Z1; auto.
  - apply obind_ok in H. destruct H as [[a b] [Ha H]]. apply m_op2_ok in Ha. cbn [fst snd] in *. subst prem. apply obind_ok in H. destruct H as [[k1 d1] [Ha H]]. apply m_op2_ok in Ha. cbn [fst snd] in *. subst a.
    apply obind_ok in H. destruct H as [[k2 d2] [Ha H]]. apply m_op2_ok in Ha. cbn [fst snd] in *. subst b. apply obind_ok in H. destruct H as [[x1 x2] [Hx H]]. apply obind_ok in H. destruct H as [[y1 y2] [Hy H]].
    apply obind_ok in H. destruct H as [c1 [Hc1 H]]. apply obind_ok in H. destruct H as [c2 [Hc2 H]]. apply obind_ok in H. destruct H as [u1 [Z1 H]]. apply obind_ok in H. destruct H as [u2 [Z2 H]]. apply rassert_ok in Z1, Z2. apply negb_true_iff in Z1, Z2.
    apply obind_ok in H. destruct H as [[l r] [Ha H]]. apply m_op2_ok in Ha. cbn [fst snd] in *. subst g.
    destruct l as [ | | |o [|l1 [|l2 [|? ?]]]| | | | ]; try discriminate. destruct r as [ | | |o2 [|r1 [|r2 [|? ?]]]| | | | ]; try discriminate.
    destruct (rel_op o && op_eqb o2 o) eqn:Eo; [|discriminate]. apply andb_true_iff in Eo. destruct Eo as [Eo Eo2]. apply op_eqb_eq in Eo2. subst o2.
    apply obind_ok in H. destruct H as [u3 [Hsg H]]. apply rassert_ok in Hsg. apply obind_ok in H. destruct H as [v1 [T1 H]]. apply obind_ok in H. destruct H as [v2 [T2 H]]. apply obind_ok in H. destruct H as [v3 [T3 T4]].
    apply teq_ok in T1, T2, T3, T4. subst. apply divs_exact_op in Hd. cbn [forallb] in Hd. rewrite !andb_true_iff in Hd. destruct Hd as [D1 [D2 _]]. apply divs_exact_op in D1, D2. cbn [forallb] in D1, D2. rewrite !andb_true_iff in D1, D2.
    apply bool_term_wt, eq_args_wt in WT. destruct WT as [W1 [W2 _]].
    destruct (real_diff_ok E d1 x1 x2 Hx) as [X1 [X2 X3]]; [apply (wt_arg _ _ _ W1); cbn; auto|tauto|]. destruct (real_diff_ok E d2 y1 y2 Hy) as [Y1 [Y2 Y3]]; [apply (wt_arg _ _ _ W2); cbn; auto|tauto|].
    apply (rel_same E o x1 x2 y1 y2 c1 c2); auto. rewrite <- X1, <- Y1.
    unfold as_fraction_err in Hc1, Hc2. apply obind_ok in Hc1, Hc2. destruct Hc1 as [f1 [F1 Hc1]], Hc2 as [f2 [F2 Hc2]]. apply ok_or_ok in Hc1, Hc2. subst.
    apply eqv_iff in HT. apply (f_equal num) in HT. change (nval E (TOp OMult [k1; d1]) = nval E (TOp OMult [k2; d2])) in HT. rewrite !nval_mult2 in HT.
    assert (A1 : nval E k1 = injQ c1) by (unfold nval; rewrite (as_fraction_eval E _ _ F1); tauto). assert (A2 : nval E k2 = injQ c2) by (unfold nval; rewrite (as_fraction_eval E _ _ F2); tauto).
    rewrite <- A1, <- A2. exact HT.
Qed.
