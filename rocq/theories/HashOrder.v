(** Iteration over hash tables: the rules that walk through a [HashMap] or a [HashSet], with the order of the walk as a
    parameter.  (The tables of the crate indexmap keep the order of insertion and need no parameter; the tables of drup are
    treated in Drup.v, the order of addresses in poly_simp in R_Poly.v.) *)
From Coq Require Import List String Ascii ZArith Bool Arith Lia Permutation.
From Verif Require Import Base Term Field Sem Utils Rules R_Simp Subst SubstSound Checker Context R_Binder OnepointSound Num R_CP.
Import ListNotations.
Local Open Scope Z_scope.

(** ** Cutting planes.  [ord i m] is the order in which the i-th loop of the rule walks through its map [m]. *)
Section Ord.
  Variable show : term -> string.
  Variable ord : nat -> pbhash -> pbhash.
  (** cutting_planes.rs:62-70 *)
  Definition add_pbsums_o (i : nat) (a b : pbhash) : pbhash :=
    fold_left (fun r p => pins r (fst p) (match pget r (fst p) with Some ca => ca + snd p | None => snd p end)) (ord i b) a.
  (** 92-128 *)
  Definition reduce_pbsum_o (i : nat) (m : pbhash) : pbhash * Z := fold_left (reduce_step m) (map fst (ord i m)) (m, 0).
  (** 132-160 *)
  Definition subset_keys_o (i : nat) (a b : pbhash) : outcome unit :=
    ofor (fun p => rassert ((snd p =? 0) || match pget b (fst p) with Some _ => true | None => false end)) (ord i a) ;; ROk tt.
  Definition same_keys_o (i : nat) (a b : pbhash) : outcome unit := subset_keys_o i a b ;; subset_keys_o (S i) b a.
  (** 162-229 *)
  Definition r_cp_addition_o : rule := fun c prems args =>
    len_is prems 2 ;;
    do p0 <- idx prems 0 ; len_is p0 1 ;; do l <- first_lit p0 ;
    do p1 <- idx prems 1 ; len_is p1 1 ;; do r <- first_lit p1 ;
    len_is args 0 ;;
    len_is c 1 ;; do g <- first_lit c ;
    do ml <- unwrap_pb show l ;
    do mr <- unwrap_pb show r ;
    do mc <- unwrap_pb show g ;
    let red := reduce_pbsum_o 1 (add_pbsums_o 0 (fst ml) (fst mr)) in
    rassert (snd ml + snd mr =? snd mc + snd red) ;;
    same_keys_o 2 (fst red) (fst mc) ;;
    ofor (fun p => if snd p =? 0 then ROk tt
                   else match pget (fst red) (fst p) with Some x => rassert (x =? snd p) | None => RErr end) (ord 4 (fst mc)) ;;
    ROk tt.
  Definition match_coeffs_o (i : nat) (f : Z -> Z) (p c : pbhash) : outcome unit :=
    ofor (fun e => match pget c (fst e) with Some x => rassert (f (snd e) =? x) | None => ROk tt end) (ord i p) ;; ROk tt.
  (** 231-270 *)
  Definition r_cp_multiplication_o : rule := fun c prems args =>
    len_is prems 1 ;;
    do p0 <- idx prems 0 ; len_is p0 1 ;; do p <- first_lit p0 ;
    len_is args 1 ;; do a <- idx args 0 ; do s <- as_integer_err a ;
    len_is c 1 ;; do g <- first_lit c ;
    do mp <- unwrap_pb show p ;
    do mc <- unwrap_pb show g ;
    rassert (s * snd mp =? snd mc) ;;
    same_keys_o 0 (fst mp) (fst mc) ;;
    match_coeffs_o 2 (fun x => s * x) (fst mp) (fst mc).
  (** 272-321 *)
  Definition r_cp_division_o : rule := fun c prems args =>
    len_is prems 1 ;;
    do p0 <- idx prems 0 ; do p <- first_lit p0 ;
    len_is args 1 ;; do a <- idx args 0 ; do d <- as_integer_err a ;
    rassert (0 <? d) ;;
    len_is c 1 ;; do g <- first_lit c ;
    do mp <- unwrap_pb show p ;
    do mc <- unwrap_pb show g ;
    rassert (cp_div d (snd mp) =? snd mc) ;;
    same_keys_o 0 (fst mp) (fst mc) ;;
    match_coeffs_o 2 (cp_div d) (fst mp) (fst mc).
  (** 323-362 *)
  Definition r_cp_saturation_o : rule := fun c prems args =>
    len_is prems 1 ;; len_is args 0 ;;
    do p0 <- idx prems 0 ; do p <- first_lit p0 ;
    len_is c 1 ;; do g <- first_lit c ;
    do mp <- unwrap_pb show p ;
    do mc <- unwrap_pb show g ;
    rassert (snd mp =? snd mc) ;;
    same_keys_o 0 (fst mp) (fst mc) ;;
    match_coeffs_o 2 (Z.min (snd mp)) (fst mp) (fst mc).
End Ord.

(** the same map in another order *)
Definition keyed (m : pbhash) : Prop := NoDup (map fst m).
Definition any_order (ord : nat -> pbhash -> pbhash) : Prop := forall i m, Permutation m (ord i m).

Lemma keyed_perm m m' : Permutation m m' -> keyed m -> keyed m'.
Proof. intros H. unfold keyed. apply Permutation_NoDup, Permutation_map, H. Qed.
Lemma pget_In m k v : keyed m -> (pget m k = Some v <-> In (k, v) m).
Proof. intros H. unfold pget. apply (im_get_In String.eqb String.eqb_eq). exact H. Qed.
Lemma pget_perm m m' k : Permutation m m' -> keyed m -> pget m k = pget m' k.
Proof.
  intros H N. assert (N' := keyed_perm _ _ H N). destruct (pget m' k) as [v|] eqn:E.
  - apply pget_In; auto. apply pget_In in E; auto. apply (Permutation_in _ (Permutation_sym H)). exact E.
  - destruct (pget m k) as [v|] eqn:E'; [|reflexivity]. apply pget_In in E'; auto. apply (Permutation_in _ H) in E'.
    apply pget_In in E'; auto. congruence.
Qed.
Lemma keyed_NoDup m : keyed m -> NoDup m.
Proof. apply NoDup_map_inv. Qed.
Lemma perm_pget m m' : keyed m -> keyed m' -> (forall k, pget m k = pget m' k) -> Permutation m m'.
Proof.
  intros N N' H. apply NoDup_Permutation; [apply keyed_NoDup; auto|apply keyed_NoDup; auto|].
  intros [k v]. rewrite <- !pget_In by auto. rewrite H. reflexivity.
Qed.
Lemma pget_pins m k v q : pget (pins m k v) q = if String.eqb q k then Some v else pget m q.
Proof. apply (im_get_insert String.eqb String.eqb_eq). Qed.
Lemma keyed_pins m k v : keyed m -> keyed (pins m k v).
Proof. apply (im_insert_NoDup String.eqb String.eqb_eq). Qed.

Lemma ofor_rassert {A} (g : A -> bool) l : ofor (fun a => rassert (g a)) l = rassert (forallb g l).
Proof. induction l as [|a l IH]; [reflexivity|]. cbn [ofor forallb]. rewrite IH. destruct (g a); reflexivity. Qed.
Lemma ofor_ext {A B} (f g : A -> outcome B) l : (forall a, f a = g a) -> ofor f l = ofor g l.
Proof. intros H. induction l as [|a l IH]; [reflexivity|]. cbn [ofor]. rewrite H, IH. reflexivity. Qed.
Lemma forallb_perm {A} (g : A -> bool) l l' : Permutation l l' -> forallb g l = forallb g l'.
Proof.
  intros H. induction H; cbn [forallb]; auto; [congruence| |congruence].
  destruct (g x), (g y); reflexivity.
Qed.
Lemma forallb_ext' {A} (f g : A -> bool) l : (forall a, f a = g a) -> forallb f l = forallb g l.
Proof. intros H. induction l as [|a l IH]; [reflexivity|]. cbn [forallb]. rewrite H, IH. reflexivity. Qed.

Lemma add_keyed b : forall a, keyed a ->
  keyed (fold_left (fun r p => pins r (fst p) (match pget r (fst p) with Some ca => ca + snd p | None => snd p end)) b a).
Proof. induction b as [|p b IH]; intros a H; [exact H|]. cbn [fold_left]. apply IH. apply keyed_pins, H. Qed.
Lemma add_get b : forall a, keyed b -> forall q,
  pget (fold_left (fun r p => pins r (fst p) (match pget r (fst p) with Some ca => ca + snd p | None => snd p end)) b a) q =
  match pget b q with Some y => Some (match pget a q with Some x => x + y | None => y end) | None => pget a q end.
Proof.
  induction b as [|[k v] b IH]; intros a N q; [reflexivity|]. cbn [fold_left fst snd].
  assert (N' : keyed b) by (inversion N; auto). assert (Hk : ~ In k (map fst b)) by (inversion N; auto).
  rewrite IH by auto. rewrite pget_pins. unfold pget at 6. cbn [im_get]. destruct (String.eqb q k) eqn:E.
  - apply String.eqb_eq in E. subst. destruct (pget b k) as [y|] eqn:Eb.
    + apply pget_In in Eb; auto. exfalso. apply Hk. apply in_map_iff. exists (k, y). auto.
    + reflexivity.
  - fold (pget b q). reflexivity.
Qed.

Definition contrib (m : pbhash) (k : string) : Z :=
  if is_negated k then 0 else match pget m k, pget m (tilde k) with Some pos, Some neg => Z.min pos neg | _, _ => 0 end.
Definition sumz (l : list Z) : Z := fold_right Z.add 0 l.
Lemma sumz_perm l l' : Permutation l l' -> sumz l = sumz l'.
Proof. intros H. induction H; cbn [sumz fold_right] in *; unfold sumz in *; cbn [fold_right]; lia. Qed.
Lemma reduce_snd m ks : forall acc, snd (fold_left (reduce_step m) ks acc) = snd acc + sumz (map (contrib m) ks).
Proof.
  induction ks as [|k ks IH]; intros acc; cbn [fold_left map sumz fold_right]; [lia|]. rewrite IH. fold (sumz (map (contrib m) ks)).
  unfold reduce_step, contrib. destruct (is_negated k); [lia|]. destruct (pget m k), (pget m (tilde k)); cbn [snd]; lia.
Qed.
Lemma reduce_keyed m ks : forall acc, keyed (fst acc) -> keyed (fst (fold_left (reduce_step m) ks acc)).
Proof.
  induction ks as [|k ks IH]; intros acc H; cbn [fold_left]; [auto|]. apply IH. unfold reduce_step. destruct (is_negated k); [auto|].
  destruct (pget m k) as [x|], (pget m (tilde k)) as [y|]; auto. cbn [fst]. destruct (y <? x); repeat apply keyed_pins; auto.
Qed.
(** the plain literal of a key *)
Definition base (q : string) : string := if is_negated q then match q with String _ r => r | _ => q end else q.
Lemma base_tilde q : is_negated q = true -> q = tilde (base q).
Proof. unfold base. intros H. rewrite H. destruct q as [|c q]; [discriminate|]. cbn in H. apply Ascii.eqb_eq in H. subst. reflexivity. Qed.
Definition newval (m : pbhash) (q : string) : option Z :=
  match pget m (base q), pget m (tilde (base q)) with
  | Some pos, Some neg => Some (if is_negated q then Z.max 0 (neg - pos) else Z.max 0 (pos - neg))
  | _, _ => None
  end.
Definition touched (m : pbhash) (ks : list string) (q : string) : bool :=
  existsb (String.eqb (base q)) ks && negb (is_negated (base q)) && match newval m q with Some _ => true | None => false end.
Lemma is_negated_tilde k : is_negated (tilde k) = true.
Proof. reflexivity. Qed.
Lemma base_of_tilde k : base (tilde k) = k.
Proof. reflexivity. Qed.
Lemma base_plain k : is_negated k = false -> base k = k.
Proof. unfold base. intros ->. reflexivity. Qed.
Lemma eqb_base q k : is_negated k = false -> String.eqb (base q) k = (String.eqb q k || String.eqb q (tilde k)).
Proof.
  intros Hk. destruct (is_negated q) eqn:E.
  - pose proof (base_tilde _ E) as H. destruct (String.eqb (base q) k) eqn:E1.
    + apply String.eqb_eq in E1. rewrite E1 in H. rewrite H, String.eqb_refl. rewrite orb_true_r. reflexivity.
    + symmetry. apply orb_false_iff. split; apply String.eqb_neq; intros Hq; subst q; [congruence|].
      rewrite base_of_tilde, String.eqb_refl in E1. discriminate.
  - rewrite base_plain by auto. destruct (String.eqb q (tilde k)) eqn:E1; [apply String.eqb_eq in E1; subst; discriminate|].
    rewrite orb_false_r. reflexivity.
Qed.
Lemma reduce_get m ks : forall acc q, pget (fst (fold_left (reduce_step m) ks acc)) q =
  if touched m ks q then newval m q else pget (fst acc) q.
Proof.
  induction ks as [|k ks IH]; intros acc q; cbn [fold_left]; [reflexivity|]. rewrite IH.
  assert (HT : touched m (k :: ks) q = (String.eqb (base q) k && negb (is_negated (base q)) && match newval m q with Some _ => true | None => false end) || touched m ks q).
  { unfold touched. cbn [existsb]. destruct (String.eqb (base q) k), (existsb _ ks), (negb (is_negated (base q))), (newval m q); reflexivity. }
  rewrite HT. destruct (touched m ks q); [rewrite orb_true_r; reflexivity|]. rewrite orb_false_r. clear HT.
  unfold reduce_step. destruct (is_negated k) eqn:Ek.
  { destruct (String.eqb (base q) k) eqn:E; [|reflexivity]. apply String.eqb_eq in E. rewrite E, Ek. reflexivity. }
  rewrite eqb_base by auto. destruct (String.eqb q k || String.eqb q (tilde k)) eqn:E.
  - assert (Hb : base q = k). { apply String.eqb_eq. rewrite eqb_base by auto. exact E. }
    unfold newval. rewrite Hb, Ek. cbn [negb andb].
    destruct (pget m k) as [pos|]; [|reflexivity]. destruct (pget m (tilde k)) as [neg|]; [|reflexivity]. cbn [fst].
    apply orb_true_iff in E. destruct E as [E|E]; apply String.eqb_eq in E; subst q.
    + rewrite Ek. assert (Hne : String.eqb k (tilde k) = false). { apply String.eqb_neq. intros Hq. rewrite Hq in Ek. discriminate. }
      destruct (neg <? pos) eqn:El; rewrite !pget_pins, Hne, String.eqb_refl; f_equal; lia.
    + rewrite is_negated_tilde. destruct (neg <? pos) eqn:El; rewrite !pget_pins, String.eqb_refl; f_equal; lia.
  - cbn [andb]. apply orb_false_iff in E. destruct E as [E1 E2].
    destruct (pget m k) as [pos|]; [|reflexivity]. destruct (pget m (tilde k)) as [neg|]; [|reflexivity]. cbn [fst].
    destruct (neg <? pos); rewrite !pget_pins, E1, E2; reflexivity.
Qed.

Lemma hash_of_keyed show l : keyed (hash_of show l).
Proof.
  unfold hash_of. assert (H : forall l m, keyed m -> keyed (fold_left (fun m e => pins m (key show (fst e)) (snd e)) l m)).
  { clear l. induction l as [|e l IH]; intros m Hm; cbn [fold_left]; [auto|]. apply IH, keyed_pins, Hm. }
  apply H. constructor.
Qed.
Lemma unwrap_keyed show t r : unwrap_pb show t = ROk r -> keyed (fst r).
Proof. unfold unwrap_pb. intros H. apply obind_ok in H. destruct H as [x [_ H]]. injection H as <-. apply hash_of_keyed. Qed.

Section Same.
  Variable show : term -> string.
  Variable ord : nat -> pbhash -> pbhash.
  Hypothesis Ho : any_order ord.
  Lemma subset_same i a a' b b' : Permutation a a' -> Permutation b b' -> keyed b -> subset_keys_o ord i a b = subset_keys a' b'.
  Proof.
    intros Ha Hb N. unfold subset_keys_o, subset_keys. rewrite !ofor_rassert.
    rewrite <- (forallb_perm _ _ _ (Ho i a)), (forallb_perm _ _ _ Ha).
    rewrite (forallb_ext' _ (fun p : string * Z => (snd p =? 0) || match pget b' (fst p) with Some _ => true | None => false end)); [reflexivity|].
    intros p. rewrite (pget_perm b b' (fst p) Hb N). reflexivity.
  Qed.
  Lemma same_same i a a' b b' : Permutation a a' -> Permutation b b' -> keyed a -> keyed b -> same_keys_o ord i a b = same_keys a' b'.
  Proof. intros Ha Hb Na Nb. unfold same_keys_o, same_keys. rewrite (subset_same i a a' b b'), (subset_same (S i) b b' a a'); auto. Qed.
  Lemma match_same i f p p' c : Permutation p p' -> match_coeffs_o ord i f p c = match_coeffs f p' c.
  Proof.
    intros Hp. unfold match_coeffs_o, match_coeffs.
    rewrite !(ofor_ext (fun e : string * Z => match pget c (fst e) with Some x => rassert (f (snd e) =? x) | None => ROk tt end)
      (fun e => rassert (match pget c (fst e) with Some x => f (snd e) =? x | None => true end))) by (intros e; destruct (pget c (fst e)); reflexivity).
    rewrite !ofor_rassert. rewrite <- (forallb_perm _ _ _ (Ho i p)), (forallb_perm _ _ _ Hp). reflexivity.
  Qed.
  Lemma add_same i a b : keyed a -> keyed b -> Permutation (add_pbsums_o ord i a b) (add_pbsums a b).
  Proof.
    intros Na Nb. pose proof (keyed_perm _ _ (Ho i b) Nb) as Nb'. apply perm_pget; [apply add_keyed; auto|apply add_keyed; auto|].
    intros k. unfold add_pbsums_o, add_pbsums. rewrite !add_get by auto. rewrite (pget_perm b (ord i b) k); auto.
  Qed.
  Lemma touched_same m m' ks ks' q : (forall k, pget m k = pget m' k) -> Permutation ks ks' -> touched m ks q = touched m' ks' q.
  Proof.
    intros Hm Hk. unfold touched, newval. rewrite !Hm. f_equal. f_equal.
    destruct (existsb (String.eqb (base q)) ks') eqn:E.
    - apply existsb_exists in E. destruct E as [x [H1 H2]]. apply existsb_exists. exists x. split; [|auto]. apply (Permutation_in _ (Permutation_sym Hk)), H1.
    - destruct (existsb (String.eqb (base q)) ks) eqn:E'; [|reflexivity]. apply existsb_exists in E'. destruct E' as [x [H1 H2]].
      rewrite <- E. symmetry. apply existsb_exists. exists x. split; [|auto]. apply (Permutation_in _ Hk), H1.
  Qed.
  Lemma reduce_same i m m' : Permutation m m' -> keyed m ->
    Permutation (fst (reduce_pbsum_o ord i m)) (fst (reduce_pbsum m')) /\ snd (reduce_pbsum_o ord i m) = snd (reduce_pbsum m').
  Proof.
    intros Hm N. assert (N' := keyed_perm _ _ Hm N). assert (HG : forall k, pget m k = pget m' k) by (intros k; apply pget_perm; auto).
    assert (HK : Permutation (map fst (ord i m)) (map fst m')).
    { apply Permutation_map. apply (Permutation_trans (Permutation_sym (Ho i m))). exact Hm. }
    unfold reduce_pbsum_o, reduce_pbsum. split.
    - apply perm_pget; [apply reduce_keyed; auto|apply reduce_keyed; auto|]. intros q. rewrite !reduce_get. cbn [fst].
      rewrite (touched_same m m' _ _ q HG HK). unfold newval. rewrite !HG. reflexivity.
    - rewrite !reduce_snd. cbn [snd]. f_equal. rewrite (map_ext (contrib m) (contrib m')) by (intros k; unfold contrib; rewrite !HG; reflexivity).
      apply sumz_perm, Permutation_map, HK.
  Qed.

  Lemma obind_ext {A B} (e : outcome A) (f g : A -> outcome B) : (forall a, e = ROk a -> f a = g a) -> obind e f = obind e g.
  Proof. destruct e as [a| |]; cbn [obind]; auto. Qed.
  Ltac cpstep := apply obind_ext; intros ? ?.
  Theorem cp_addition_order c ps args : r_cp_addition_o show ord c ps args = r_cp_addition show c ps args.
  Proof.
    unfold r_cp_addition_o, r_cp_addition. do 10 cpstep.
    apply obind_ext. intros ml Hl. apply obind_ext. intros mr Hr. apply obind_ext. intros mc Hc.
    apply unwrap_keyed in Hl, Hr, Hc. cbv zeta.
    assert (HA := add_same 0 _ _ Hl Hr). assert (NA : keyed (add_pbsums_o ord 0 (fst ml) (fst mr))) by (apply add_keyed; auto).
    destruct (reduce_same 1 _ _ HA NA) as [HR HS]. rewrite HS. cpstep.
    assert (NR : keyed (fst (reduce_pbsum_o ord 1 (add_pbsums_o ord 0 (fst ml) (fst mr))))) by (apply reduce_keyed; auto).
    rewrite (same_same 2 _ _ _ _ HR (Permutation_refl (fst mc)) NR Hc). cpstep.
    set (m1 := fst (reduce_pbsum_o ord 1 _)) in *. set (m2 := fst (reduce_pbsum _)) in *.
    assert (HX : forall m l, ofor (fun p : string * Z => if snd p =? 0 then ROk tt else match pget m (fst p) with Some x => rassert (x =? snd p) | None => RErr end) l
      = rassert (forallb (fun p : string * Z => (snd p =? 0) || match pget m (fst p) with Some x => x =? snd p | None => false end) l)).
    { intros m l. rewrite <- ofor_rassert. apply ofor_ext. intros p. destruct (snd p =? 0); [reflexivity|]. destruct (pget m (fst p)); reflexivity. }
    rewrite !HX. rewrite <- (forallb_perm _ _ _ (Ho 4%nat (fst mc))).
    rewrite (forallb_ext' _ (fun p : string * Z => (snd p =? 0) || match pget m2 (fst p) with Some x => x =? snd p | None => false end)); [reflexivity|].
    intros p. rewrite (pget_perm m1 m2 _ HR NR). reflexivity.
  Qed.
  Ltac tail := apply obind_ext; intros mp Hp; apply obind_ext; intros mc Hc; apply unwrap_keyed in Hp, Hc; cpstep;
    rewrite (same_same 0 _ _ _ _ (Permutation_refl (fst mp)) (Permutation_refl (fst mc)) Hp Hc); cpstep; apply match_same, Permutation_refl.
  Theorem cp_multiplication_order c ps args : r_cp_multiplication_o show ord c ps args = r_cp_multiplication show c ps args.
  Proof. unfold r_cp_multiplication_o, r_cp_multiplication. do 9 cpstep. tail. Qed.
  Theorem cp_division_order c ps args : r_cp_division_o show ord c ps args = r_cp_division show c ps args.
  Proof. unfold r_cp_division_o, r_cp_division. do 9 cpstep. tail. Qed.
  Theorem cp_saturation_order c ps args : r_cp_saturation_o show ord c ps args = r_cp_saturation show c ps args.
  Proof. unfold r_cp_saturation_o, r_cp_saturation. do 6 cpstep. tail. Qed.
End Same.

(** ** onepoint: the points of the formula are kept in a hash set, and the substitution of the context is applied to them in
    the order of that set (subproof.rs:296-303). *)
Local Open Scope nat_scope.
Definition r_onepoint_o (ord : list (string * term) -> list (string * term)) : crule := fun ra =>
  do prev <- ok_or (ra_prev ra) ;
  len_is (ra_concl ra) 1 ;;
  do c0 <- idx (ra_concl ra) 0 ;
  do lr <- m_op2 OEquals c0 ;
  do ql <- ok_or (as_quant (fst lr)) ;
  let '(q, lb, left_) := ql in
  do qr <- (match as_quant (snd lr) with
            | Some (q', rb, u) => rassert (binder_beq q' q) ;; ROk (rb, u)
            | None => ROk ([], snd lr)
            end) ;
  let (rb, right_) := qr in
  do pt <- premise_term prev ;
  do pe <- m_op2 OEquals pt ;
  rassert (term_eqb (fst pe) left_ && term_eqb (snd pe) right_ || term_eqb (fst pe) right_ && term_eqb (snd pe) left_) ;;
  do pts <- apply_points (fresh_stack (ra_ctx ra)) (ord (find_points (binder_beq q BExists) left_)) ;
  do a <- last_ctx (ra_ctx ra) ;
  rassert (forallb (fun p => existsb (point_eqb (fst (fst p), snd p)) pts) (assigns a)) ;;
  rassert (binds_eqb (decls a) rb) ;;
  let expected := (decls a ++ map asg_key (assigns a))%list in
  rassert (forallb (fun v => svmem v expected) lb && forallb (fun v => svmem v lb) expected).
(** a listing of the set of the points *)
Definition any_listing (ord : list (string * term) -> list (string * term)) : Prop := forall l p, In p (ord l) <-> In p l.

(** *** What a substitution computes, without its cache, except for the entries [C] that are there in the beginning *)
Section Pap.
  Local Notation atom t := (match t with TConst _ | TVar _ _ | TSort _ => True | _ => False end).
  Inductive pap : smap -> smap -> list string -> term -> term -> Prop :=
  | pap_cache C m N t r : sget C t = Some r -> pap C m N t r
  | pap_map C m N t r : sget C t = None -> sget m t = Some r -> pap C m N t r
  | pap_atom C m N t : sget C t = None -> sget m t = None -> atom t -> pap C m N t t
  | pap_app C m N f f' l l' : sget C (TApp f l) = None -> sget m (TApp f l) = None -> paps C m N l l' -> pap C m N f f' ->
      pap C m N (TApp f l) (TApp f' l')
  | pap_op C m N o l l' : sget C (TOp o l) = None -> sget m (TOp o l) = None -> paps C m N l l' -> pap C m N (TOp o l) (TOp o l')
  | pap_pop C m N o oa l l' : sget C (TPOp o oa l) = None -> sget m (TPOp o oa l) = None -> paps C m N l l' ->
      pap C m N (TPOp o oa l) (TPOp o oa l')
  | pap_skip C m N b vs i : sget C (TBind b vs i) = None -> sget m (TBind b vs i) = None -> can_skip m N vs = true ->
      pap C m N (TBind b vs i) (TBind b vs i)
  | pap_plain C m N b vs vs' i i' : sget C (TBind b vs i) = None -> sget m (TBind b vs i) = None -> can_skip m N vs = false ->
      rename_vars N [] [] vs = (vs', []) -> pap C m N i i' -> pap C m N (TBind b vs i) (TBind b vs' i')
  | pap_ren C m N b vs vs' ren i i1 i2 : sget C (TBind b vs i) = None -> sget m (TBind b vs i) = None -> can_skip m N vs = false ->
      rename_vars N [] [] vs = (vs', ren) -> ren <> [] -> pap [] ren (sbr_of ren) i i1 -> pap C m N i1 i2 ->
      pap C m N (TBind b vs i) (TBind b vs' i2)
  with paps : smap -> smap -> list string -> list term -> list term -> Prop :=
  | paps_nil C m N : paps C m N [] []
  | paps_cons C m N a a' l l' : pap C m N a a' -> paps C m N l l' -> paps C m N (a :: l) (a' :: l').
End Pap.
Scheme pap_mut := Induction for pap Sort Prop with paps_mut := Induction for paps Sort Prop.

Lemma pap_fun : forall C m N t r, pap C m N t r -> forall r', pap C m N t r' -> r = r'.
Proof.
  apply (pap_mut (fun C m N t r _ => forall r', pap C m N t r' -> r = r') (fun C m N l l' _ => forall l2, paps C m N l l2 -> l' = l2)).
  - intros C m N t r H r' H'. inversion H'; subst; congruence.
  - intros C m N t r H1 H2 r' H'. inversion H'; subst; congruence.
  - intros C m N t H1 H2 Ha r' H'. inversion H'; subst; try congruence; contradiction.
  - intros C m N f f' l l' H1 H2 Hl IHl Hf IHf r' H'. inversion H'; subst; try congruence; try contradiction. f_equal; auto.
  - intros C m N o l l' H1 H2 Hl IHl r' H'. inversion H'; subst; try congruence; try contradiction. f_equal; auto.
  - intros C m N o oa l l' H1 H2 Hl IHl r' H'. inversion H'; subst; try congruence; try contradiction. f_equal; auto.
  - intros C m N b vs i H1 H2 Hs r' H'. inversion H'; subst; congruence.
  - intros C m N b vs vs' i i' H1 H2 Hs Hr Hi IHi r' H'. inversion H'; subst; try congruence; try contradiction.
    assert (vs'0 = vs') by congruence. subst. f_equal. auto.
  - intros C m N b vs vs' ren i i1 i2 H1 H2 Hs Hr Hne Hi1 IH1 Hi2 IH2 r' H'. inversion H'; subst; try congruence; try contradiction.
    assert (vs'0 = vs') by congruence. assert (ren0 = ren) by congruence. subst. f_equal. apply IH2.
    match goal with H : pap [] ren _ i ?x |- _ => rewrite (IH1 _ H) end. auto.
  - intros C m N l2 H. inversion H. reflexivity.
  - intros C m N a a' l l' Ha IHa Hl IHl l2 H. inversion H; subst. f_equal; auto.
Qed.

(** the state of a substitution whose map and names to avoid are fixed *)
Definition pinv (C m : smap) (N : list string) (S : sub) : Prop :=
  sm S = m /\ sub_names S = N /\ (forall k r, sget C k = Some r -> sget (sc S) k = Some r) /\
  (forall k r, sget (sc S) k = Some r -> pap C m N k r).
Lemma pinv_self S : pinv (sc S) (sm S) (sub_names S) S.
Proof. split; [auto|]. split; [auto|]. split; [auto|]. intros k r H. apply pap_cache, H. Qed.
Lemma pinv_names C m N S : pinv C m N S -> pinv C m N (with_names S).
Proof. intros [H1 [H2 [H3 H4]]]. split; [exact H1|]. split; [exact H2|]. split; [exact H3|exact H4]. Qed.
Lemma pinv_cached C m N S t r : pinv C m N S -> sget C t = None -> pap C m N t r -> pinv C m N (cached S t r).
Proof.
  intros [H1 [H2 [H3 H4]]] Hc Hp. split; [exact H1|]. split; [exact H2|]. split; intros k r' Hk; cbn [cached sc] in *; rewrite sget_sins in *.
  - destruct (term_eqb k t) eqn:E; [apply term_eqb_eq in E; subst; congruence|auto].
  - destruct (term_eqb k t) eqn:E; [|auto]. apply term_eqb_eq in E. subst. assert (r' = r) by congruence. subst. exact Hp.
Qed.
Lemma pap_seq (f : sub -> term -> outcome sres) C m N :
  (forall S t r S' ok, pinv C m N S -> no_let t = true -> f S t = ROk (r, S', ok) -> pinv C m N S' /\ pap C m N t r) ->
  forall l S l' S' ok, pinv C m N S -> forallb no_let l = true -> apply_seq f S l = ROk (l', S', ok) -> pinv C m N S' /\ paps C m N l l'.
Proof.
  intros Hf. induction l as [|a l IH]; intros S l' S' ok Hi Hn H; cbn [apply_seq] in H.
  - assert (l' = []) by congruence. assert (S' = S) by congruence. subst. split; [auto|constructor].
  - cbn [forallb] in Hn. apply andb_true_iff in Hn. destruct Hn as [Hn1 Hn2].
    apply obind_ok in H. destruct H as [[[a' S1] ok1] [H1 H]]. apply obind_ok in H. destruct H as [[[r' S2] ok2] [H2 H]].
    assert (l' = a' :: r') by congruence. assert (S2 = S') by congruence. subst. clear H.
    destruct (Hf _ _ _ _ _ Hi Hn1 H1) as [A B]. destruct (IH _ _ _ _ A Hn2 H2) as [P Q]. split; [auto|constructor; auto].
Qed.
Lemma apply_pap : forall n C m N S t r S' ok, pinv C m N S -> no_let t = true -> apply n S t = ROk (r, S', ok) ->
  pinv C m N S' /\ pap C m N t r.
Proof.
  induction n as [|n IH]; intros C m N S t r S' ok Hi Hn H; [discriminate|]. cbn [apply] in H.
  destruct (sget (sc S) t) as [v|] eqn:Ec.
  { assert (v = r) by congruence. assert (S = S') by congruence. subst. split; [auto|]. apply Hi, Ec. }
  assert (EC : sget C t = None). { destruct (sget C t) as [v|] eqn:E; [|reflexivity]. apply (proj1 (proj2 (proj2 Hi))) in E. congruence. }
  assert (Em' := proj1 Hi). destruct (sget (sm S) t) as [v|] eqn:Em.
  { assert (v = r) by congruence. assert (S = S') by congruence. subst. split; [auto|]. apply pap_map; auto. }
  rewrite Em' in Em. apply obind_ok in H. destruct H as [[[r0 S1] ok1] [H0 H]]. assert (r0 = r) by congruence. assert (S' = cached S1 t r) by congruence. subst r0 S'. clear H.
  enough (pinv C m N S1 /\ pap C m N t r) as [A B] by (split; [apply pinv_cached; auto|auto]). clear Ec.
  assert (HS := pap_seq _ C m N (fun S t r S' ok => IH C m N S t r S' ok)).
  destruct t as [c|x s|f args|o args|s|b vs inner|bs inner|o oa args]; cbn [apply_body] in H0; cbn [no_let] in Hn.
  - assert (r = TConst c) by congruence. assert (S1 = S) by congruence. subst r S1. split; [auto|]. apply pap_atom; auto.
  - assert (r = TVar x s) by congruence. assert (S1 = S) by congruence. subst r S1. split; [auto|]. apply pap_atom; auto.
  - apply andb_true_iff in Hn. destruct Hn as [Hn1 Hn2].
    apply obind_ok in H0. destruct H0 as [[[args' S2] ok2] [H1 H]]. apply obind_ok in H. destruct H as [[[f' S3] ok3] [H2 H]].
    assert (r = TApp f' args') by congruence. assert (S3 = S1) by congruence. subst r S3. destruct (HS _ _ _ _ _ Hi Hn2 H1) as [A B].
    destruct (IH _ _ _ _ _ _ _ _ A Hn1 H2) as [P Q]. split; [auto|]. apply pap_app; auto.
  - apply obind_ok in H0. destruct H0 as [[[args' S2] ok2] [H1 H]]. assert (r = TOp o args') by congruence. assert (S2 = S1) by congruence. subst r S2.
    destruct (HS _ _ _ _ _ Hi Hn H1) as [A B]. split; [auto|]. apply pap_op; auto.
  - assert (r = TSort s) by congruence. assert (S1 = S) by congruence. subst r S1. split; [auto|]. apply pap_atom; auto.
  - cbv zeta in H0. rewrite Em', (proj1 (proj2 Hi)) in H0. destruct (can_skip m N vs) eqn:Es.
    { assert (r = TBind b vs inner) by congruence. assert (S1 = with_names S) by congruence. subst r S1. split; [apply pinv_names; auto|]. apply pap_skip; auto. }
    destruct (rename_vars N [] [] vs) as [vs' ren] eqn:Er. assert (Hvm := rename_vars_map _ _ _ _ _ _ Er var_map_nil). destruct ren as [|p ren].
    + apply obind_ok in H0. destruct H0 as [[[i' S2] ok2] [H1 H]]. assert (r = TBind b vs' i') by congruence. assert (S2 = S1) by congruence. subst r S2.
      destruct (IH _ _ _ _ _ _ _ _ (pinv_names _ _ _ _ Hi) Hn H1) as [A B]. split; [auto|]. apply pap_plain; auto.
    + apply obind_ok in H0. destruct H0 as [[[i1 S2] ok2] [H1 H]]. apply obind_ok in H. destruct H as [[[i2 S3] ok3] [H2 H]].
      assert (r = TBind b vs' i2) by congruence. assert (S3 = S1) by congruence. subst r S3.
      destruct (IH _ _ _ _ _ _ _ _ (pinv_self (sub_of (p :: ren))) Hn H1) as [_ A].
      assert (Hn1 : no_let i1 = true). { apply apply_vm in H1; [|apply inv_vm_of; auto]. apply H1, Hn. }
      destruct (IH _ _ _ _ _ _ _ _ (pinv_names _ _ _ _ Hi) Hn1 H2) as [P Q]. split; [auto|].
      apply (pap_ren C m N b vs vs' (p :: ren) inner i1 i2); auto. discriminate.
  - discriminate.
  - apply obind_ok in H0. destruct H0 as [[[args' S2] ok2] [H1 H]]. assert (r = TPOp o oa args') by congruence. assert (S2 = S1) by congruence. subst r S2.
    destruct (HS _ _ _ _ _ Hi Hn H1) as [A B]. split; [auto|]. apply pap_pop; auto.
Qed.
(** A substitution applied to a [let]-free term always has a result. *)
Lemma sub_apply_pap C m N S t : pinv C m N S -> no_let t = true -> exists r S' ok, sub_apply S t = ROk (r, S', ok) /\ pinv C m N S' /\ pap C m N t r.
Proof.
  intros Hi Hn. unfold sub_apply. destruct (apply (tsize t) S t) as [[[r S'] ok]| |] eqn:E.
  - exists r, S', ok. split; [reflexivity|]. apply (apply_pap _ _ _ _ _ _ _ _ _ Hi Hn E).
  - exfalso. apply (apply_fuel (tsize t) S t); auto.
  - exfalso. apply (apply_nopanic (tsize t) S t); auto.
Qed.

Definition pts_rel (C m : smap) (N : list string) (l pts : list (string * term)) : Prop :=
  Forall2 (fun p q => fst p = fst q /\ pap C m N (snd p) (snd q)) l pts.
Lemma apply_points_pap C m N a r : forall l S, pinv C m N S -> (forall p, In p l -> no_let (snd p) = true) ->
  exists pts, apply_points (mkLv a (Some S) :: r) l = ROk pts /\ pts_rel C m N l pts.
Proof.
  induction l as [|[x t] l IH]; intros S Hi Hl; cbn [apply_points].
  - exists []. split; [reflexivity|constructor].
  - destruct (sub_apply_pap C m N S t Hi (Hl _ (or_introl eq_refl))) as [t' [S' [ok [E [Hi' Hp]]]]].
    cbn [ctx_apply catch_up obind]. rewrite E. cbn [obind].
    destruct (IH S' Hi' (fun p Hp => Hl p (or_intror Hp))) as [pts [E2 H2]]. rewrite E2. cbn [obind].
    exists ((x, t') :: pts). split; [reflexivity|]. constructor; [split; auto|exact H2].
Qed.
Lemma pts_rel_In C m N l1 l2 p1 p2 : pts_rel C m N l1 p1 -> pts_rel C m N l2 p2 -> (forall p, In p l1 -> In p l2) -> forall q, In q p1 -> In q p2.
Proof.
  intros H1 H2 HI q Hq.
  assert (X : exists p, In p l1 /\ fst p = fst q /\ pap C m N (snd p) (snd q)).
  { clear HI H2. induction H1 as [|p q' l1 p1 H H1 IH]; [contradiction|]. destruct Hq as [<-|Hq]; [exists p; split; [left; auto|exact H]|].
    destruct (IH Hq) as [p' [A B]]. exists p'. split; [right; auto|exact B]. }
  destruct X as [p [Hp [Hf Hpp]]]. apply HI in Hp. clear H1 HI Hq. induction H2 as [|p' q' l2 p2 [A B] H2 IH]; [contradiction|].
  destruct Hp as [<-|Hp]; [left|right; auto]. destruct q as [x t], q' as [x' t']. cbn [fst snd] in *. f_equal; [congruence|]. symmetry. apply (pap_fun _ _ _ _ _ Hpp), B.
Qed.
Lemma existsb_same {A} (f : A -> bool) l l' : (forall x, In x l <-> In x l') -> existsb f l = existsb f l'.
Proof.
  intros H. destruct (existsb f l') eqn:E.
  - apply existsb_exists in E. destruct E as [x [Hx Hf]]. apply existsb_exists. exists x. split; [apply H; auto|auto].
  - destruct (existsb f l) eqn:E'; [|reflexivity]. apply existsb_exists in E'. destruct E' as [x [Hx Hf]].
    rewrite <- E. symmetry. apply existsb_exists. exists x. split; [apply H; auto|auto].
Qed.
Lemma ctx_apply_None cx a t : ctx_apply (fresh_stack (a :: cx)) t = do st1 <- catch_up (fresh_stack (a :: cx)) ; ctx_apply st1 t.
Proof.
  unfold ctx_apply at 1. cbn [fresh_stack map]. apply obind_ext. intros st1 H. cbn [catch_up] in H.
  apply obind_ok in H. destruct H as [r' [_ H]]. apply obind_ok in H. destruct H as [x [_ H]]. injection H as <-. reflexivity.
Qed.
Lemma apply_points_None cx a l : l <> [] -> apply_points (fresh_stack (a :: cx)) l = do st1 <- catch_up (fresh_stack (a :: cx)) ; apply_points st1 l.
Proof.
  destruct l as [|[x t] l]; [congruence|]. intros _. cbn [apply_points]. rewrite ctx_apply_None.
  destruct (catch_up (fresh_stack (a :: cx))); reflexivity.
Qed.
Lemma apply_points_nil l : apply_points [] l = ROk l.
Proof. induction l as [|[x t] l IH]; [reflexivity|]. cbn [apply_points ctx_apply obind]. rewrite IH. reflexivity. Qed.
Lemma points_no_let t : forall pol, no_let t = true -> forall p, In p (find_points pol t) -> no_let (snd p) = true.
Proof.
  induction t as [c|x s|f args IHf IHa|o l IH|s|b vs inner IH|bs inner IHb IH|o oa l IHo IH] using term_ind'; intros pol Hn p Hp; cbn [find_points] in Hp; try contradiction.
  - cbn [no_let] in Hn. rewrite forallb_forall in Hn. rewrite Forall_forall in IH.
    assert (HF : forall pl, In p (flat_map (find_points pl) l) -> no_let (snd p) = true).
    { intros pl H. apply in_flat_map in H. destruct H as [a [Ha H]]. apply (IH a Ha pl); auto. }
    destruct (op_eqb o ONot).
    + destruct l as [|x [|? ?]]; try contradiction. apply (IH x (or_introl eq_refl) (negb pol)); auto. apply Hn. left; auto.
    + destruct pol.
      * destruct (op_eqb o OEquals).
        { destruct l as [|a [|b [|? ?]]]; try contradiction. apply in_app_iff in Hp. destruct Hp as [Hp|Hp].
          - destruct a; try contradiction. destruct Hp as [<-|[]]. apply Hn. right; left; auto.
          - destruct b; try contradiction. destruct Hp as [<-|[]]. apply Hn. left; auto. }
        destruct (op_eqb o OAnd); [apply (HF _ Hp)|contradiction].
      * destruct (op_eqb o OImplies).
        { destruct l as [|a [|b [|? ?]]]; try contradiction. apply in_app_iff in Hp. destruct Hp as [Hp|Hp].
          - apply (IH a (or_introl eq_refl) true); auto. apply Hn; left; auto.
          - apply (IH b (or_intror (or_introl eq_refl)) false); auto. apply Hn; right; left; auto. }
        destruct (op_eqb o OOr); [apply (HF _ Hp)|contradiction].
  - cbn [no_let] in Hn. destruct b; try contradiction; apply (IH pol); auto.
Qed.
Theorem onepoint_order ord ra : any_listing ord -> forallb no_let (ra_concl ra) = true -> r_onepoint_o ord ra = r_onepoint ra.
Proof.
  intros Ho Hn. unfold r_onepoint_o, r_onepoint. apply obind_ext. intros prev _. apply obind_ext. intros [] Hlen. apply obind_ext. intros c0 Hc.
  apply obind_ext. intros lr Hlr. apply obind_ext. intros [[q lb] left_] Hq. apply obind_ext. intros [rb right_] _.
  apply obind_ext. intros pt _. apply obind_ext. intros pe _. apply obind_ext. intros [] _.
  assert (HL : no_let left_ = true).
  { rewrite forallb_forall in Hn. assert (H0 : no_let c0 = true). { apply Hn. unfold idx in Hc. destruct (nth_error (ra_concl ra) 0) eqn:E; [|discriminate]. injection Hc as <-. apply nth_error_In in E. exact E. }
    apply m_op2_ok in Hlr. subst c0. cbn [no_let forallb] in H0. apply andb_true_iff in H0. destruct H0 as [H0 _].
    destruct (fst lr) as [| | | | |b vs i| |]; try discriminate. destruct b; try discriminate; injection Hq as <- <- <-; exact H0. }
  set (l := find_points (binder_beq q BExists) left_).
  assert (Hp : forall p, In p l -> no_let (snd p) = true) by (intros p; apply points_no_let; auto).
  assert (HE : l = [] -> ord l = []). { intros ->. destruct (ord []) as [|p r] eqn:E; [reflexivity|]. exfalso. apply (Ho [] p). rewrite E. left; auto. }
  assert (HN : l <> [] -> ord l <> []). { intros H E. destruct l as [|p r]; [congruence|]. pose proof (proj2 (Ho (p :: r) p) (or_introl eq_refl)) as X. rewrite E in X. exact X. }
  destruct (ra_ctx ra) as [|a cx].
  { cbn [fresh_stack map]. rewrite !apply_points_nil. cbn [obind last_ctx]. reflexivity. }
  destruct l as [|p0 l0] eqn:El.
  { rewrite (HE eq_refl). reflexivity. }
  rewrite <- El in *. assert (Hne : l <> []) by (rewrite El; discriminate). rewrite !apply_points_None by auto.
  destruct (catch_up (fresh_stack (a :: cx))) as [st1| |] eqn:Ec; [|reflexivity|reflexivity]. cbn [obind].
  cbn [fresh_stack map catch_up] in Ec. apply obind_ok in Ec. destruct Ec as [r' [_ Ec]]. apply obind_ok in Ec. destruct Ec as [x [_ Ec]]. injection Ec as <-.
  destruct (apply_points_pap _ _ _ a r' l (fst x) (pinv_self (fst x)) Hp) as [p1 [E1 R1]].
  destruct (apply_points_pap _ _ _ a r' (ord l) (fst x) (pinv_self (fst x)) (fun p Hp' => Hp p (proj1 (Ho l p) Hp'))) as [p2 [E2 R2]].
  rewrite E1, E2. cbn [obind last_ctx].
  assert (HS : forall q, In q p2 <-> In q p1).
  { intros y. split; [apply (pts_rel_In _ _ _ _ _ _ _ R2 R1)|apply (pts_rel_In _ _ _ _ _ _ _ R1 R2)]; intros p; apply Ho. }
  apply obind_ext. intros a' _. f_equal. f_equal. apply forallb_ext'. intros p. apply existsb_same, HS.
Qed.
