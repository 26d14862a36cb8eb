(** The verdict of poly_simp does not depend on the addresses by which the factors of monomials are sorted. *)
From Coq Require Import List String ZArith QArith Bool Arith Lia Permutation.
From Verif Require Import Base Term Sem Rules Utils Num R_Poly PolySound.
Import ListNotations.
Local Open Scope nat_scope.

Section Order.
  Variables meqb1 meqb2 : monomial -> monomial -> bool.
  Variables srt1 srt2 : list term -> list term.
  (** the monomials that occur *)
  Variables ok1 ok2 : monomial -> Prop.
  Hypothesis one1 : forall t, ok1 [t].
  Hypothesis one2 : forall t, ok2 [t].
  Hypothesis srt1_ok : forall l, ok1 (srt1 l) /\ Permutation (srt1 l) l.
  Hypothesis srt2_ok : forall l, ok2 (srt2 l) /\ Permutation (srt2 l) l.
  Hypothesis meqb1_ok : forall a b, ok1 a -> ok1 b -> (meqb1 a b = true <-> Permutation a b).
  Hypothesis meqb2_ok : forall a b, ok2 a -> ok2 b -> (meqb2 a b = true <-> Permutation a b).
  Definition kr (a b : monomial) : Prop := ok1 a /\ ok2 b /\ Permutation a b.
  Definition er (x y : monomial * Q) : Prop := kr (fst x) (fst y) /\ snd x = snd y.
  Definition pr (p q : poly) : Prop := Forall2 er (fst p) (fst q) /\ snd p = snd q.
  Lemma kr_eqb a b c d : kr a c -> kr b d -> meqb1 a b = meqb2 c d.
  Proof.
    intros [A1 [A2 A3]] [B1 [B2 B3]]. apply Bool.eq_true_iff_eq. rewrite (meqb1_ok _ _ A1 B1), (meqb2_ok _ _ A2 B2). split; intros H.
    - rewrite <- A3, <- B3. auto.
    - rewrite A3, B3. auto.
  Qed.
  Lemma get_r m m' k k' : Forall2 er m m' -> kr k k' -> im_get meqb1 m k = im_get meqb2 m' k'.
  Proof.
    intros H Hk. induction H as [|[a x] [b y] m m' [H1 H2] _ IH]; auto. cbn in *. subst y. rewrite (kr_eqb _ _ _ _ Hk H1), IH. auto.
  Qed.
  Lemma insert_r m m' k k' v : Forall2 er m m' -> kr k k' -> Forall2 er (im_insert meqb1 m k v) (im_insert meqb2 m' k' v).
  Proof.
    intros H Hk. induction H as [|[a x] [b y] m m' [H1 H2] Hm IH]; cbn in *; [constructor; [split; auto|constructor]|]. subst y.
    rewrite (kr_eqb _ _ _ _ Hk H1). destruct (meqb2 k' b); constructor; auto; split; auto.
  Qed.
  Lemma last_r (l l' : list (monomial * Q)) : Forall2 er l l' -> forall x x', er x x' -> er (last l x) (last l' x').
  Proof. induction 1 as [|a b l l' Hab Hl IH]; intros x x' Hx; auto. inversion Hl; subst; cbn in *; auto. Qed.
  Lemma removelast_r (l l' : list (monomial * Q)) : Forall2 er l l' -> Forall2 er (removelast l) (removelast l').
  Proof. induction 1 as [|a b l l' Hab Hl IH]; [constructor|]. inversion Hl; subst; cbn in *; auto. Qed.
  Lemma remove_r m m' k k' : Forall2 er m m' -> kr k k' -> Forall2 er (im_swap_remove meqb1 m k) (im_swap_remove meqb2 m' k').
  Proof.
    intros H Hk. induction H as [|[a x] [b y] m m' [H1 H2] Hm IH]; [constructor|]. cbn [im_swap_remove fst snd] in *. subst y. rewrite (kr_eqb _ _ _ _ Hk H1).
    destruct (meqb2 k' b); [|constructor; auto; split; auto]. destruct Hm as [|u w l l' Hu Hl]; constructor; [apply last_r; auto|apply removelast_r; auto].
  Qed.
  Lemma p_insert_r p q k k' v : pr p q -> kr k k' -> pr (p_insert meqb1 p k v) (p_insert meqb2 q k' v).
  Proof.
    intros [H1 H2] Hk. unfold p_insert. destruct (Qeq_bool v 0); [split; auto|]. rewrite (get_r _ _ _ _ H1 Hk). destruct (im_get meqb2 (fst q) k') as [old|].
    - destruct (Qeq_bool (old + v) 0); split; cbn [fst snd]; auto; [apply remove_r|apply insert_r]; auto.
    - split; cbn [fst snd]; auto. apply insert_r; auto.
  Qed.
  Lemma p_inserts_r l l' : Forall2 er l l' -> forall p q, pr p q -> pr (p_inserts meqb1 p l) (p_inserts meqb2 q l').
  Proof.
    unfold p_inserts. induction 1 as [|x y l l' [H1 H2] _ IH]; intros p q H; auto. cbn [fold_left]. rewrite H2. apply IH, p_insert_r; auto.
  Qed.
  Lemma pr_new : pr p_new p_new. Proof. split; [constructor|auto]. Qed.
  Lemma mul_kr a b c d : kr a c -> kr b d -> kr (mon_mul srt1 a b) (mon_mul srt2 c d).
  Proof.
    intros [A1 [A2 A3]] [B1 [B2 B3]]. unfold mon_mul. split; [apply srt1_ok|]. split; [apply srt2_ok|].
    etransitivity; [apply srt1_ok|]. symmetry. etransitivity; [apply srt2_ok|]. symmetry. apply Permutation_app; auto.
  Qed.
  Lemma pr_const p q c c' : pr p q -> c = c' -> pr (fst p, c) (fst q, c').
  Proof. intros [H _] ->. split; auto. Qed.
  Lemma p_mul_r a b c d : pr a c -> pr b d -> pr (p_mul meqb1 srt1 a b) (p_mul meqb2 srt2 c d).
  Proof.
    intros [A1 A2] [B1 B2]. unfold p_mul.
    assert (H2 : forall l l', Forall2 er l l' -> forall p q, pr p q ->
      pr (fold_left (fun r y => p_insert meqb1 r (fst y) (snd y * snd a)%Q) l p) (fold_left (fun r y => p_insert meqb2 r (fst y) (snd y * snd c)%Q) l' q)).
    { induction 1 as [|x y l l' [X1 X2] _ IH]; intros p q H; auto. cbn [fold_left]. rewrite X2, A2. rewrite A2 in IH. apply IH, p_insert_r; auto. }
    assert (H1 : forall l l', Forall2 er l l' -> forall p q, pr p q ->
      pr (fold_left (fun r x => p_insert meqb1 (fold_left (fun r y => p_insert meqb1 r (mon_mul srt1 (fst x) (fst y)) (snd x * snd y)%Q) (fst b) r) (fst x) (snd x * snd b)%Q) l p)
         (fold_left (fun r x => p_insert meqb2 (fold_left (fun r y => p_insert meqb2 r (mon_mul srt2 (fst x) (fst y)) (snd x * snd y)%Q) (fst d) r) (fst x) (snd x * snd d)%Q) l' q)).
    { induction 1 as [|x y l l' [X1 X2] _ IH]; intros p q H; auto. cbn [fold_left]. apply IH. rewrite X2, B2. apply p_insert_r; auto. clear IH.
      revert p q H. induction B1 as [|u w m m' [U1 U2] _ IHm]; intros p q H; auto. cbn [fold_left]. apply IHm. rewrite U2. apply p_insert_r; auto. apply mul_kr; auto. }
    cbn zeta. set (r1 := fold_left _ (fst a) p_new). set (r1' := fold_left _ (fst c) p_new). assert (R1 : pr r1 r1') by (apply H1; [auto|apply pr_new]).
    pose proof (H2 _ _ B1 _ _ R1) as R2. apply pr_const; auto. destruct R2 as [_ ->]. rewrite A2, B2. auto.
  Qed.
  Lemma p_neg_r p q : pr p q -> pr (p_neg p) (p_neg q).
  Proof.
    intros [H1 H2]. unfold p_neg. rewrite H2. split; auto. cbn [fst]. induction H1 as [|x y l l' [X1 X2] _ IH]; constructor; auto. rewrite X2. split; auto.
  Qed.
  Lemma p_sub_r a b c d : pr a c -> pr b d -> pr (p_sub meqb1 a b) (p_sub meqb2 c d).
  Proof.
    intros HA HB. apply p_neg_r in HB. unfold p_sub. pose proof (p_inserts_r _ _ (proj1 HB) _ _ HA) as R. apply pr_const; auto. rewrite (proj2 R), (proj2 HB). auto.
  Qed.
  Lemma p_zero_r p q : pr p q -> p_is_zero p = p_is_zero q.
  Proof. intros [H1 H2]. unfold p_is_zero. rewrite H2. destruct H1; auto. Qed.
  Definition pr_opt (p q : option poly) : Prop := match p, q with Some p, Some q => pr p q | None, None => True | _, _ => False end.
  Lemma p_modulo_r n p q : pr p q -> pr_opt (p_modulo n p) (p_modulo n q).
  Proof.
    intros [H1 H2]. unfold p_modulo. rewrite H2. assert (G : match mod_coeffs n (fst p), mod_coeffs n (fst q) with Some l, Some l' => Forall2 er l l' | None, None => True | _, _ => False end).
    { induction H1 as [|[a x] [b y] l l' [X1 X2] _ IH]; cbn [mod_coeffs]; [constructor|]. cbn [fst snd] in *. subst y. destruct (q_mod n x); auto. destruct (mod_coeffs n l), (mod_coeffs n l'); auto. constructor; auto. split; auto. }
    destruct (mod_coeffs n (fst p)), (mod_coeffs n (fst q)); try contradiction; [|cbn; auto]. destruct (q_mod n (snd q)); cbn; auto. split; auto.
  Qed.
  (** outcomes *)
  Definition orel (x y : outcome poly) : Prop :=
    match x, y with ROk p, ROk q => pr p q | RErr, RErr => True | RPanic, RPanic => True | _, _ => False end.
  Lemma orel_bind x y f g : orel x y -> (forall p q, pr p q -> orel (f p) (g q)) -> orel (do p <- x ; f p) (do q <- y ; g q).
  Proof. destruct x, y; cbn; auto; contradiction. Qed.
  Lemma atom_kr t : kr [t] [t]. Proof. split; auto. Qed.
  Lemma p_other_r t c p q : pr p q -> orel (p_other meqb1 t c p) (p_other meqb2 t c q).
  Proof.
    intros H. unfold p_other. destruct (as_fraction t) as [[r|]| |]; cbn [obind]; try exact I.
    - cbn. apply pr_const; auto. rewrite (proj2 H). auto.
    - assert (A : orel (ROk (p_insert meqb1 p [t] c)) (ROk (p_insert meqb2 q [t] c))) by (apply p_insert_r; auto; apply atom_kr).
      destruct t as [[]| | | | | | |]; auto. cbn. apply pr_const; auto. rewrite (proj2 H). auto.
  Qed.
  Lemma add_all_r f g l : Forall (fun t => forall p q, pr p q -> orel (f t p) (g t q)) l -> forall p q, pr p q -> orel (p_add_all f l p) (p_add_all g l q).
  Proof. induction 1 as [|t l Ht _ IH]; intros p q H; cbn [p_add_all]; auto. apply orel_bind; auto. Qed.
  Lemma prod_r f g l : Forall (fun t => orel (f t) (g t)) l -> orel (p_prod meqb1 srt1 f l) (p_prod meqb2 srt2 g l).
  Proof.
    intros HF. destruct HF as [|t l Ht HF]; cbn [p_prod]; [exact I|]. apply orel_bind; auto. clear t Ht.
    induction HF as [|t l Ht _ IH]; intros p q H; cbn [p_prod_from]; [exact H|]. apply orel_bind; auto. intros p' q' H'. apply IH, p_mul_r; auto.
  Qed.
  Lemma add_term_r t : forall c p q, pr p q -> orel (p_add_term meqb1 srt1 t c p) (p_add_term meqb2 srt2 t c q).
  Proof.
    induction t as [c|x s|f args IHf IHargs|o args IHargs|s|b vs t IHt|bs t IHbs IHt|o oargs args IHo IHargs] using term_ind'; intros k p q H; try (apply p_other_r; exact H).
    assert (HO : orel (p_other meqb1 (TOp o args) k p) (p_other meqb2 (TOp o args) k q)) by (apply p_other_r; auto).
    assert (HA : forall c, Forall (fun t => forall p q, pr p q -> orel (p_add_term meqb1 srt1 t c p) (p_add_term meqb2 srt2 t c q)) args) by (intros c; eapply Forall_impl; [|exact IHargs]; cbn; auto).
    cbn [p_add_term]. destruct (op_eqb o OAdd || op_eqb o OBvAdd); [apply (add_all_r _ _ _ (HA k)); auto|].
    destruct ((op_eqb o OSub || op_eqb o OBvNeg) && one_arg args); [apply (add_all_r _ _ _ (HA (- k)%Q)); auto|].
    destruct (op_eqb o OSub || op_eqb o OBvSub).
    { destruct args as [|a r]; [exact I|]. pose proof (HA k) as H1. inversion H1; subst. pose proof (HA (- k)%Q) as H2. inversion H2; subst. apply orel_bind; auto. intros p' q' H'. apply add_all_r; auto. }
    destruct (op_eqb o OMult || op_eqb o OBvMul).
    { apply orel_bind.
      - apply prod_r. specialize (HA 1%Q). eapply Forall_impl; [|exact HA]. cbn. intros t Ht. apply Ht, pr_new.
      - intros p' q' H'. cbn [orel]. assert (R : pr (p_inserts meqb1 p (map (fun x => (fst x, (snd x * k)%Q)) (fst p'))) (p_inserts meqb2 q (map (fun x => (fst x, (snd x * k)%Q)) (fst q')))).
        { apply p_inserts_r; auto. destruct H' as [H' _]. induction H' as [|x y l l' [X1 X2] _ IH]; constructor; auto. rewrite X2. split; auto. }
        apply pr_const; auto. rewrite (proj2 R), (proj2 H'). auto. }
    destruct (op_eqb o ORealDiv).
    { destruct args as [|a [|b [|c r]]]; auto. destruct (as_fraction b) as [[r|]| |]; cbn [obind]; try exact I; auto. destruct (Qeq_bool r 0); [apply p_insert_r; auto; apply atom_kr|]. specialize (HA (k / r)%Q). inversion HA; subst. auto. }
    destruct (op_eqb o OToReal).
    { destruct args as [|a r]; [exact I|]. specialize (HA k). inversion HA; subst. auto. }
    destruct (op_eqb o OIntDiv); auto.
    destruct args as [|a [|b [|c r]]]; auto. destruct (as_fraction b) as [[r|]| |]; cbn [obind]; try exact I; auto. destruct (Qeq_bool r 0); auto. apply p_insert_r; auto. apply atom_kr.
  Qed.
  Theorem poly_order c ps args : r_poly_simp meqb1 srt1 c ps args = r_poly_simp meqb2 srt2 c ps args.
  Proof.
    unfold r_poly_simp. destruct (len_is c 1); auto. cbn [obind]. destruct (idx c 0) as [t0| |]; auto. cbn [obind]. destruct (m_op2 OEquals t0) as [[t s]| |]; auto. cbn [obind fst snd].
    pose proof (add_term_r t 1%Q _ _ pr_new) as HT. pose proof (add_term_r s 1%Q _ _ pr_new) as HS. unfold p_from_term.
    destruct (p_add_term meqb1 srt1 t 1 p_new) as [p| |], (p_add_term meqb2 srt2 t 1 p_new) as [p'| |]; cbn in HT; try contradiction; auto. cbn [obind].
    destruct (p_add_term meqb1 srt1 s 1 p_new) as [q| |], (p_add_term meqb2 srt2 s 1 p_new) as [q'| |]; cbn in HS; try contradiction; auto. cbn [obind].
    destruct (sort_of t); try (rewrite (p_zero_r _ _ (p_sub_r _ _ _ _ HT HS)); reflexivity).
    pose proof (p_modulo_r (2 ^ Z.of_nat w) _ _ HT) as MT. pose proof (p_modulo_r (2 ^ Z.of_nat w) _ _ HS) as MS.
    destruct (p_modulo (2 ^ Z.of_nat w) p), (p_modulo (2 ^ Z.of_nat w) p'); cbn in MT; try contradiction; auto. cbn [unwrap obind].
    destruct (p_modulo (2 ^ Z.of_nat w) q), (p_modulo (2 ^ Z.of_nat w) q'); cbn in MS; try contradiction; auto. cbn [unwrap obind].
    rewrite (p_zero_r _ _ (p_sub_r _ _ _ _ MT MS)). reflexivity.
  Qed.
End Order.
Lemma mon_permb_eq a b : mon_permb a b = true <-> Permutation a b.
Proof. apply ms_eqb_spec, term_eqb_eq. Qed.
(** Sorting by addresses: a permutation that depends only on the multiset of the factors. *)
Definition sorting (srt : list term -> list term) : Prop :=
  (forall l, Permutation (srt l) l) /\ (forall a b, Permutation a b -> srt a = srt b).
Lemma poly_sorted srt c ps args : sorting srt -> r_poly_simp mon_eqb srt c ps args = r_poly_simp mon_permb (fun l => l) c ps args.
Proof.
  intros [H1 H2]. apply (poly_order mon_eqb mon_permb srt (fun l => l) (fun a => srt a = a) (fun _ => True)); auto.
  - intros t. specialize (H1 [t]). apply Permutation_sym, Permutation_length_1_inv in H1. auto.
  - intros a b Ha Hb. rewrite mon_eqb_eq. split; [intros ->; auto|]. intros H. rewrite <- Ha, <- Hb. auto.
  - intros a b _ _. apply mon_permb_eq.
Qed.
