(** Elaborating resolution steps: elaborator/resolution.rs and the tracing of greedy_resolution, resolution.rs:72-227. *)
From Coq Require Import List String ZArith Bool Arith Lia Permutation.
From Verif Require Import Base Term Sem Rules R_Taut R_Claus R_Eq R_Resolution R_Extras R_ResExact Utils Checker R_Binder R_Simp Table DrupSound Elab ElabSound ElabCong ElabFlip.
Import ListNotations.
Open Scope string_scope.
Local Open Scope nat_scope.
Local Open Scope list_scope.

(** what greedy_resolution pushes to [pivot_trace] for a term, resolution.rs:145-164 *)
Definition traced (concl : list lit) (g : gstate) (t : term) : option (term * bool) :=
  let l := remove_all_negations t in
  let (n, inner) := l in
  if memb lit_eqb l concl && negb (memb lit_eqb l (g_work g)) then None
  else if g_elim g then None
  else if match n with O => false | S m => is_some (try_elim (g_piv g) (m, inner)) end then Some (literal_to_term (pred n, inner), true)
  else if is_some (try_elim (g_piv g) (S n, inner)) then Some (t, false)
  else None.
Definition greedy_lit_t (concl : list lit) (s : gstate * list (term * bool)) (t : term) : gstate * list (term * bool) :=
  (greedy_lit concl (fst s) t, match traced concl (fst s) t with Some x => snd s ++ [x] | None => snd s end).
Definition greedy_clause_t (concl : list lit) (s : gstate * list (term * bool)) (p : clause) : gstate * list (term * bool) :=
  fold_left (greedy_lit_t concl) p (mkG (g_work (fst s)) (g_piv (fst s)) false, snd s).
Definition greedy_run_t (concl : list lit) (ps : list clause) : gstate * list (term * bool) :=
  fold_left (greedy_clause_t concl) ps (mkG [] [] false, []).
(** 179-226: [true] is [not_not_added] *)
Definition greedy_final_t (concl : list lit) (g : gstate) : outcome bool :=
  match filter (fun e => negb (snd e)) (g_piv g) with
  | [] => rassert (forallb (fun l => memb lit_eqb l (g_work g)) concl) ;; ROk false
  | [((i, pivot), _)] =>
      if (match concl with [] => true | _ => false end) && Nat.eqb i 0 && is_false pivot then ROk false
      else match concl with
           | [(j, ct)] => rassert (term_eqb ct pivot && Nat.eqb (i mod 2) (j mod 2)) ;; ROk true
           | _ => RErr
           end
  | _ => RErr
  end.
Definition greedy_t (c : clause) (ps : list clause) : outcome (bool * list (term * bool)) :=
  let concl := set_of lit_eqb (map remove_all_negations c) in
  let s := greedy_run_t concl ps in
  do nn <- greedy_final_t concl (fst s) ; ROk (nn, snd s).

(** DedupIterator, utils.rs: the first of every key is kept *)
Fixpoint dedup_by {A K} (eqb : K -> K -> bool) (key : A -> K) (l : list A) : list A :=
  match l with [] => [] | x :: r => x :: filter (fun y => negb (eqb (key x) (key y))) (dedup_by eqb key r) end.
(** ** resolution, elaborator/resolution.rs:4-146.  The premises come with their addresses, which is what [dedup] compares; the error that
    the function returns is unwrapped by its only caller (elaborator/mod.rs:184) and so is a panic here. *)
Definition pivot_args (tr : list (term * bool)) : list term := flat_map (fun p : term * bool => [fst p; if snd p then tTrue else tFalse]) tr.
Definition not_not_steps (c0 : term) (res : term -> enode) : outcome enode :=
  do s <- unwrap (remove_negation c0) ;
  do c <- unwrap (remove_negation s) ;
  let q4 := tNot (tNot c0) in
  ROk (EStep [c0] "resolution"
         [res c; EStep [q4; s] "not_not" [] []; EStep [tNot q4; c0] "not_not" [] []]
         [c; tTrue; q4; tTrue]).
Definition general_resolution (c : clause) (ps : list (nat * enode)) : outcome enode :=
  let ps1 := dedup_by Nat.eqb fst ps in
  do r <- match greedy_t c (map eclause (map snd ps1)) with
          | ROk x => ROk (x, ps1)
          | RErr => match greedy_t c (map eclause (map snd (rev ps1))) with
                    | ROk x => ROk (x, rev ps1)
                    | _ => RPanic
                    end
          | RPanic => RPanic
          end ;
  let prems := map snd (snd r) in
  let args := pivot_args (snd (fst r)) in
  if fst (fst r) then
    match c with
    | [c0] => not_not_steps c0 (fun x => EStep [x] "resolution" prems args)
    | _ => RPanic
    end
  else ROk (EStep c "resolution" prems args).
Definition elab_resolution (name : string) (c : clause) (ps : list (nat * enode)) (args : list term) : outcome enode :=
  match args, c, map snd ps with
  | _ :: _, _, _ => ROk (EStep c name (map snd ps) args)
  | [], [], [p] =>
      if match eclause p with [t] => term_eqb t (tNot tTrue) | _ => false end
      then ROk (EStep [] "resolution" [p; EStep [tTrue] "true" [] []] [tTrue; tFalse])
      else if match eclause p with [] => true | _ => false end then ROk (EStep c name [p] args)
      else general_resolution c ps
  | [], [], qs => if existsb (fun p => match eclause p with [] => true | _ => false end) qs then ROk (EStep c name qs args) else general_resolution c ps
  | [], _, _ => general_resolution c ps
  end.

(** ** Regular resolutions
    Every clause after the first is resolved upon one atom.  Before that clause the atom occurs with one polarity only, in the clause it occurs once, with
    the opposite polarity, and afterwards it does not occur again. *)
Definition pcur (p : lit) (b : bool) : lit := if b then p else neg_lit p.
Definition pnext (p : lit) (b : bool) : lit := if b then neg_lit p else p.
Fixpoint regular (past : list lit) (l : list (clause * (lit * bool))) : Prop :=
  match l with
  | [] => True
  | (D, (p, b)) :: r =>
      In (pcur p b) past /\ (forall x, In x past -> snd x = snd p -> x = pcur p b) /\
      (exists D1 D2, lits D = D1 ++ pnext p b :: D2 /\ forall x, In x (D1 ++ D2) -> snd x <> snd p) /\
      (forall E x, In E (map fst r) -> In x (lits E) -> snd x <> snd p) /\
      regular (past ++ lits D) r
  end.
Definition all_lits (p0 : clause) (l : list (clause * (lit * bool))) : list lit := lits p0 ++ flat_map (fun e => lits (fst e)) l.
Definition atoms_of (l : list (clause * (lit * bool))) : list term := map (fun e => snd (fst (snd e))) l.
(** the conclusion has the literals whose atoms are not resolved upon *)
Definition regular_step (c p0 : clause) (l : list (clause * (lit * bool))) : Prop :=
  regular (lits p0) l /\ forall x, In x (lits c) <-> In x (all_lits p0 l) /\ ~ In (snd x) (atoms_of l).

Lemma pcur_atom p b : snd (pcur p b) = snd p. Proof. destruct b; reflexivity. Qed.
Lemma pnext_atom p b : snd (pnext p b) = snd p. Proof. destruct b; reflexivity. Qed.
Lemma pnext_ne p b : pnext p b <> pcur p b.
Proof. destruct p as [n t]. destruct b; unfold pnext, pcur, neg_lit; cbn; intros H; injection H; lia. Qed.
(** such a step is a chain of resolutions *)
Lemma regular_chain l : forall past cur R, regular past l ->
  (forall x, In x cur -> In x past) -> (forall x, In x past -> In (snd x) (atoms_of l) -> In x cur) ->
  (forall x, In x R <-> (In x cur \/ In x (flat_map (fun e => lits (fst e)) l)) /\ ~ In (snd x) (atoms_of l)) ->
  chain cur l R.
Proof.
  induction l as [|[D [p b]] r IH]; intros past cur R HR Hc1 Hc2 Hx.
  - constructor. intros x. rewrite Hx. cbn. tauto.
  - cbn [regular] in HR. destruct HR as (H1 & H2 & (D1 & D2 & HD & HDn) & H4 & H5).
    set (C' := filter (fun y => negb (lit_eqb y (pcur p b))) cur ++ D1 ++ D2).
    assert (HC' : forall y, In y C' <-> (In y cur /\ y <> pcur p b) \/ In y D1 \/ In y D2).
    { intros y. unfold C'. rewrite !in_app_iff, filter_In, negb_true_iff. split.
      - intros [[Ha Hb]|H]; [left; split; [exact Ha|]|right; exact H]. intros ->. assert (lit_eqb (pcur p b) (pcur p b) = true) by (apply lit_eqb_eq; reflexivity). congruence.
      - intros [[Ha Hb]|H]; [left; split; [exact Ha|]|right; exact H]. destruct (lit_eqb y (pcur p b)) eqn:E; [|reflexivity]. apply lit_eqb_eq in E. contradiction. }
    assert (Hatom : In (snd p) (atoms_of ((D, (p, b)) :: r))) by (left; reflexivity).
    apply (Chain_cons _ _ _ _ C').
    + split; [apply (Hc2 (pcur p b)); [exact H1|rewrite pcur_atom; exact Hatom]|]. exists D1, D2. split; [exact HD|]. split; [|exact HC'].
      intros Hin. apply (HDn (pnext p b)); [apply in_or_app; left; exact Hin|apply pnext_atom].
    + assert (Hnp : ~ In (snd p) (atoms_of r)).
      { intros Hin. apply in_map_iff in Hin. destruct Hin as [[E [q d]] [Eq Hin]]. cbn in Eq.
        assert (G : forall l past, regular past l -> In (E, (q, d)) l -> In (pnext q d) (lits E)).
        { clear. induction l as [|[E' [q' d']] l IH]; intros past HR Hin; [destruct Hin|]. cbn [regular] in HR. destruct HR as (_ & _ & (D1 & D2 & HD & _) & _ & HR).
          destruct Hin as [Hin|Hin]; [|eapply IH; eauto]. injection Hin as -> -> ->. rewrite HD. apply in_or_app. right. left. reflexivity. }
        apply (H4 E (pnext q d)); [apply in_map_iff; exists (E, (q, d)); auto|eapply G; eauto|rewrite pnext_atom; exact Eq]. }
      assert (HDr : forall x, In x (flat_map (fun e : clause * (lit * bool) => lits (fst e)) r) -> snd x <> snd p).
      { intros x Hin. apply in_flat_map in Hin. destruct Hin as [e [He Hin]]. apply (H4 (fst e)); [apply in_map, He|exact Hin]. }
      apply (IH (past ++ lits D)); [exact H5| | |].
      * intros x Hin. apply HC' in Hin. apply in_or_app. rewrite HD, in_app_iff. cbn [In]. destruct Hin as [[Ha _]|[Ha|Ha]]; auto.
      * intros x Hin Ha. apply HC'. apply in_app_or in Hin. destruct Hin as [Hin|Hin].
        -- left. split; [apply Hc2; [exact Hin|right; exact Ha]|]. intros ->. rewrite pcur_atom in Ha. contradiction.
        -- rewrite HD in Hin. apply in_app_or in Hin. destruct Hin as [Hin|[<-|Hin]]; auto. rewrite pnext_atom in Ha. contradiction.
      * intros x. rewrite Hx, HC'. cbn [flat_map fst atoms_of map snd In]. rewrite HD, !in_app_iff. cbn [In]. fold (atoms_of r). split.
        -- intros [Ha Hb]. split; [|intros Hc; apply Hb; right; exact Hc]. destruct Ha as [Ha|[[Ha|[<-|Ha]]|Ha]]; auto.
           ++ left. left. split; [exact Ha|]. intros ->. apply Hb. left. symmetry. apply pcur_atom.
           ++ exfalso. apply Hb. left. symmetry. apply pnext_atom.
        -- intros [Ha Hb]. split; [destruct Ha as [[[Ha _]|[Ha|Ha]]|Ha]; auto 6|]. intros [Hc|Hc]; [|contradiction].
           destruct Ha as [[[Ha Hne]|Ha]|Ha].
           ++ apply Hne. apply H2; [apply Hc1; exact Ha|auto].
           ++ apply (HDn x); [apply in_or_app; exact Ha|auto].
           ++ apply (HDr x); auto.
Qed.

Lemma ran_iter a n : remove_all_negations a = (0, a) -> remove_all_negations (Nat.iter n tNot a) = (n, a).
Proof.
  intros Ha. induction n as [|n IH]; [exact Ha|]. change (Nat.iter (S n) tNot a) with (TOp ONot [Nat.iter n tNot a]).
  assert (E : forall x, remove_all_negations (TOp ONot [x]) = let (k, u) := remove_all_negations x in (S k, u)) by reflexivity.
  rewrite E, IH. reflexivity.
Qed.

(** *** what the greedy search does *)
Lemma piv_get_in p k : piv_get p k = None <-> ~ In k (map fst p).
Proof.
  unfold piv_get. induction p as [|[x b] p IH]; cbn [find map fst]; [cbn; tauto|]. destruct (lit_eqb k x) eqn:E.
  - apply lit_eqb_eq in E. subst. split; [discriminate|]. intros H. exfalso. apply H. left. reflexivity.
  - rewrite IH. cbn [In]. split; [intros H [H1|H1]; [|auto]|tauto]. subst. assert (lit_eqb k k = true) by (apply lit_eqb_eq; reflexivity). congruence.
Qed.
Lemma try_elim_none p k : ~ In k (map fst p) -> try_elim p k = None.
Proof. intros H. unfold try_elim. rewrite (proj2 (piv_get_in p k) H). reflexivity. Qed.
Lemma try_elim_some p k : In k (map fst p) -> try_elim p k = Some (piv_set_true p k).
Proof. intros H. unfold try_elim. destruct (piv_get p k) eqn:E; [reflexivity|]. apply piv_get_in in E. contradiction. Qed.
Lemma set_true_keys p k : map fst (piv_set_true p k) = map fst p.
Proof. unfold piv_set_true. rewrite map_map. apply map_ext. intros [x b]. cbn. destruct (lit_eqb k x); reflexivity. Qed.
Lemma or_insert_in p l e : In e (piv_or_insert p l) -> In e p \/ e = (l, false).
Proof. unfold piv_or_insert. destruct (piv_get p l); [auto|]. intros H. apply in_app_or in H. destruct H as [H|[<-|[]]]; auto. Qed.
Lemma or_insert_keys p l x : In x (map fst (piv_or_insert p l)) <-> In x (map fst p) \/ x = l.
Proof.
  unfold piv_or_insert. destruct (piv_get p l) eqn:E.
  - split; [auto|]. intros [H| ->]; [exact H|]. destruct (in_dec (fun a b => match lit_eqb a b as r return lit_eqb a b = r -> {a = b} + {a <> b} with true => fun h => left (proj1 (lit_eqb_eq a b) h) | false => fun h => right (fun hh => eq_ind true (fun q => match q with true => True | false => False end) Logic.I false (eq_trans (eq_sym (proj2 (lit_eqb_eq a b) hh)) h)) end eq_refl) l (map fst p)) as [H|H]; [exact H|].
    apply piv_get_in in H. congruence.
  - rewrite map_app, in_app_iff. cbn. intuition.
Qed.
Section Greedy.
  Variable concl : list lit.
  (* [S]: the literals met so far; [EA]: the atoms resolved upon so far *)
  Record inv (S : list lit) (EA : list term) (g : gstate) : Prop := {
    inv_work : forall x, In x (g_work g) <-> In x concl /\ In x S;
    inv_keys : forall k, In k (map fst (g_piv g)) -> ~ In k concl /\ In k S;
    inv_kept : forall k, In k S -> ~ In k concl -> ~ In (snd k) EA -> In k (map fst (g_piv g));
    inv_false : forall k, In (k, false) (g_piv g) -> ~ In (snd k) EA }.
  Lemma memb_lit x l : memb lit_eqb x l = true <-> In x l. Proof. apply (memb_In _ lit_eqb_eq). Qed.
  Lemma memb_lit_f x l : memb lit_eqb x l = false <-> ~ In x l.
  Proof. rewrite <- memb_lit. destruct (memb lit_eqb x l); split; try congruence; intros H; exfalso; apply H; reflexivity. Qed.
  Lemma step_keep S EA g tr t : let x := remove_all_negations t in inv S EA g -> ~ In (snd x) EA ->
    (forall k, In k (map fst (g_piv g)) -> snd k = snd x -> k = x) ->
    exists g', greedy_lit_t concl (g, tr) t = (g', tr) /\ inv (S ++ [x]) EA g' /\ g_elim g' = g_elim g.
  Proof.
    intros x HI HEA Hk. destruct HI as [HW HK HP HF]. unfold greedy_lit_t, greedy_lit, traced. cbn [fst snd]. fold x. destruct x as [n inner] eqn:Ex.
    assert (Hno : forall m, m <> n -> ~ In (m, inner) (map fst (g_piv g))).
    { intros m Hm Hin. specialize (Hk _ Hin eq_refl). injection Hk as ->. contradiction. }
    destruct (memb lit_eqb (n, inner) concl) eqn:Ec.
    - apply memb_lit in Ec. cbn [andb].
      assert (HIn : inv (S ++ [(n, inner)]) EA (mkG (set_insert lit_eqb (n, inner) (g_work g)) (g_piv g) (g_elim g))).
      { constructor; cbn [g_work g_piv].
        - intros y. rewrite (set_insert_In _ lit_eqb_eq), HW, in_app_iff. cbn [In]. split; [intros [->|H]; tauto|intros [H1 [H2|[<-|[]]]]; auto].
        - intros k Hin. destruct (HK k Hin). rewrite in_app_iff. auto.
        - intros k Hin Hn. apply in_app_or in Hin. destruct Hin as [Hin|[<-|[]]]; [auto|contradiction].
        - exact HF. }
      destruct (negb (memb lit_eqb (n, inner) (g_work g))) eqn:Ew.
      + eexists. split; [reflexivity|]. split; [exact HIn|reflexivity].
      + rewrite (try_elim_none _ (Datatypes.S n, inner)) by (apply Hno; lia).
        assert (E1 : match n with 0 => None | Datatypes.S m => try_elim (g_piv g) (m, inner) end = None) by (destruct n; [reflexivity|apply try_elim_none, Hno; lia]).
        assert (E2 : match n with 0 => false | Datatypes.S m => is_some (try_elim (g_piv g) (m, inner)) end = false) by (destruct n; [reflexivity|rewrite try_elim_none by (apply Hno; lia); reflexivity]).
        rewrite E1, E2. cbn [is_some]. destruct (g_elim g) eqn:Eg; eexists; (split; [reflexivity|]); (split; [exact HIn|reflexivity]).
    - pose proof Ec as Ec'. apply memb_lit_f in Ec'. cbn [andb].
      rewrite (try_elim_none _ (Datatypes.S n, inner)) by (apply Hno; lia).
      assert (E1 : match n with 0 => None | Datatypes.S m => try_elim (g_piv g) (m, inner) end = None) by (destruct n; [reflexivity|apply try_elim_none, Hno; lia]).
      assert (E2 : match n with 0 => false | Datatypes.S m => is_some (try_elim (g_piv g) (m, inner)) end = false) by (destruct n; [reflexivity|rewrite try_elim_none by (apply Hno; lia); reflexivity]).
      rewrite E1, E2. cbn [is_some].
      assert (HIn : inv (S ++ [(n, inner)]) EA (mkG (g_work g) (piv_or_insert (g_piv g) (n, inner)) (g_elim g))).
      { constructor; cbn [g_work g_piv].
        - intros y. rewrite HW, in_app_iff. cbn [In]. split; [intros [H1 H2]; auto|intros [H1 [H2|[<-|[]]]]; [auto|contradiction]].
        - intros k Hin. apply or_insert_keys in Hin. rewrite in_app_iff. destruct Hin as [Hin| ->]; [destruct (HK k Hin); auto|]. split; [exact Ec'|right; left; reflexivity].
        - intros k Hin Hn He. apply or_insert_keys. apply in_app_or in Hin. destruct Hin as [Hin|[<-|[]]]; auto.
        - intros k Hin. apply or_insert_in in Hin. destruct Hin as [Hin|Hin]; [auto|]. injection Hin as ->. exact HEA. }
      destruct (g_elim g) eqn:Eg; eexists; (split; [reflexivity|]); (split; [exact HIn|reflexivity]).
  Qed.
  Lemma steps_keep ts : forall S EA g tr, inv S EA g -> (forall x, In x (lits ts) -> ~ In (snd x) EA) ->
    (forall x k, In x (lits ts) -> In k S \/ In k (lits ts) -> ~ In k concl -> In k (map fst (g_piv g)) \/ In k (lits ts) -> snd k = snd x -> k = x) ->
    exists g', fold_left (greedy_lit_t concl) ts (g, tr) = (g', tr) /\ inv (S ++ lits ts) EA g' /\ g_elim g' = g_elim g.
  Proof.
    induction ts as [|t ts IH]; intros S EA g tr HI HEA Hk.
    - exists g. cbn. rewrite app_nil_r. auto.
    - cbn [lits map] in HEA, Hk. destruct (step_keep S EA g tr t HI) as (g1 & E1 & I1 & L1).
      + apply HEA. left. reflexivity.
      + intros k Hin. destruct (inv_keys _ _ _ HI k Hin). apply Hk; auto. left. reflexivity.
      + cbn [fold_left]. rewrite E1. destruct (IH (S ++ [remove_all_negations t]) EA g1 tr I1) as (g2 & E2 & I2 & L2).
        * intros x Hx. apply HEA. right. exact Hx.
        * intros x k Hx HkS Hkc Hkk Hsx. destruct Hkk as [Hkk|Hkk].
          -- destruct (inv_keys _ _ _ I1 k Hkk) as [_ Hin]. apply in_app_or in Hin. destruct Hin as [Hin|[<-|[]]].
             ++ apply Hk; auto; [right; exact Hx|]. left.
                destruct HI as [_ HK HP _]. apply HP; auto. rewrite Hsx. apply HEA. right. exact Hx.
             ++ apply Hk; [right; exact Hx|right; left; reflexivity|exact Hkc|right; left; reflexivity|exact Hsx].
          -- apply Hk; [right; exact Hx|right; right; exact Hkk|exact Hkc|right; right; exact Hkk|exact Hsx].
        * exists g2. rewrite E2. cbn [lits map]. rewrite <- app_assoc in I2. split; [reflexivity|]. split; [exact I2|congruence].
  Qed.
  (** a clause with its pivot *)
  Lemma clause_regular D p b S EA g tr D1 D2 : inv S EA g -> lits D = D1 ++ pnext p b :: D2 ->
    (forall x, In x (D1 ++ D2) -> snd x <> snd p) -> (forall x, In x (lits D) -> ~ In (snd x) EA) ->
    (forall x k, In x (D1 ++ D2) -> In k S \/ In k (D1 ++ D2) -> ~ In k concl -> snd k = snd x -> k = x) ->
    In (pcur p b) S -> (forall x, In x S -> snd x = snd p -> x = pcur p b) -> ~ In (pcur p b) concl -> ~ In (pnext p b) concl ->
    exists g' t, greedy_clause_t concl (g, tr) D = (g', tr ++ [(t, b)]) /\ remove_all_negations t = p /\ inv (S ++ lits D) (snd p :: EA) g'.
  Proof.
    intros HI HD HDn HEA Hk Hpc Hpu Hc1 Hc2. unfold lits in HD. apply map_eq_app in HD. destruct HD as (T1 & T' & -> & HT1 & HT').
    destruct T' as [|t T2]; [discriminate|]. cbn [map] in HT'. injection HT' as Ht HT2.
    unfold greedy_clause_t. cbn [fst snd]. rewrite fold_left_app. cbn [fold_left].
    assert (HI0 : inv S EA (mkG (g_work g) (g_piv g) false)) by (destruct HI; constructor; assumption).
    destruct (steps_keep T1 S EA (mkG (g_work g) (g_piv g) false) tr HI0) as (g1 & E1 & I1 & L1).
    { intros x Hx. apply HEA. unfold lits. rewrite map_app, in_app_iff. left. exact Hx. }
    { intros x k Hx HkS Hkc _ Hsx. unfold lits in Hx, HkS. rewrite HT1 in Hx, HkS. apply Hk; auto; [apply in_or_app; left; exact Hx|]. rewrite in_app_iff. tauto. }
    rewrite E1. cbn [g_elim] in L1. unfold lits in I1. rewrite HT1 in I1.
    (* the pivot *)
    assert (Hpk : In (pcur p b) (map fst (g_piv g1))).
    { apply (inv_kept _ _ _ I1); [apply in_or_app; left; exact Hpc|exact Hc1|]. rewrite pcur_atom, <- (pnext_atom p b). apply HEA. unfold lits. rewrite map_app. apply in_or_app. right. left. exact Ht. }
    assert (Hpn : forall k, In k (map fst (g_piv g1)) -> snd k = snd p -> k = pcur p b).
    { intros k Hin Hs. destruct (inv_keys _ _ _ I1 k Hin) as [_ Hin2]. apply in_app_or in Hin2. destruct Hin2 as [Hin2|Hin2]; [auto|]. exfalso. apply (HDn k); [apply in_or_app; left; exact Hin2|exact Hs]. }
    set (g2 := mkG (g_work g1) (piv_set_true (g_piv g1) (pcur p b)) true).
    assert (Hstep : exists u, greedy_lit_t concl (g1, tr) t = (g2, tr ++ [(u, b)]) /\ remove_all_negations u = p).
    { unfold greedy_lit_t, greedy_lit, traced. cbn [fst snd]. rewrite Ht. rewrite L1. destruct p as [n a]. destruct b; unfold pnext, pcur, neg_lit in *; cbn [fst snd] in *.
      - rewrite (proj2 (memb_lit_f _ _) Hc2). cbn [andb]. rewrite (try_elim_some _ _ Hpk). cbn [is_some pred]. exists (literal_to_term (n, a)). split; [reflexivity|].
        assert (Ha : remove_all_negations a = (0, a)).
        { clear - Ht. revert Ht. generalize (Datatypes.S n). intros m. revert m. clear. induction t using term_ind'; intros m H'; cbn [remove_all_negations] in H'; try (injection H' as _ <-; reflexivity).
          destruct args as [|x [|y args]]; try (injection H' as _ <-; reflexivity). destruct (op_eqb o ONot) eqn:Eo; [|injection H' as _ <-; cbn [remove_all_negations]; rewrite Eo; reflexivity].
          inversion H as [|? ? Hx _]; subst. destruct (remove_all_negations x) as [k u] eqn:Ex. injection H' as _ <-. apply (Hx k). reflexivity. }
        unfold literal_to_term. cbn [fst snd]. apply ran_iter, Ha.
      - rewrite (proj2 (memb_lit_f _ _) Hc2). cbn [andb].
        assert (E2 : match n with 0 => None | Datatypes.S m => try_elim (g_piv g1) (m, a) end = None).
        { destruct n; [reflexivity|]. apply try_elim_none. intros Hin. specialize (Hpn _ Hin eq_refl). injection Hpn. lia. }
        assert (E3 : match n with 0 => false | Datatypes.S m => is_some (try_elim (g_piv g1) (m, a)) end = false) by (destruct n; [reflexivity|rewrite E2; reflexivity]).
        rewrite E2, E3, (try_elim_some _ _ Hpk). cbn [is_some]. exists t. split; [reflexivity|exact Ht]. }
    destruct Hstep as (u & Eu & Hu). rewrite Eu.
    assert (I2 : inv ((S ++ D1) ++ [pnext p b]) (snd p :: EA) g2).
    { destruct I1 as [HW HK HP HF]. constructor; cbn [g2 g_work g_piv].
      - intros x. rewrite HW, (in_app_iff (S ++ D1)). cbn [In]. split; [tauto|]. intros [H1 [H2|[<-|[]]]]; [auto|contradiction].
      - intros k. rewrite set_true_keys. intros Hin. destruct (HK k Hin). rewrite (in_app_iff (S ++ D1)). auto.
      - intros k Hin Hn He. rewrite set_true_keys. apply in_app_or in Hin. destruct Hin as [Hin|[<-|[]]].
        + apply HP; auto. intros He2. apply He. right. exact He2.
        + exfalso. apply He. left. symmetry. apply pnext_atom.
      - intros k Hin. unfold piv_set_true in Hin. apply in_map_iff in Hin. destruct Hin as [[k0 b0] [E Hin]]. cbn [fst snd] in E.
        destruct (lit_eqb (pcur p b) k0) eqn:Ek; [discriminate|]. injection E as -> ->. intros [He|He]; [|apply (HF k Hin He)].
        assert (Hx : k = pcur p b) by (apply Hpn; [apply in_map_iff; exists (k, false); auto|auto]). subst k. assert (lit_eqb (pcur p b) (pcur p b) = true) by (apply lit_eqb_eq; reflexivity). congruence. }
    destruct (steps_keep T2 ((S ++ D1) ++ [pnext p b]) (snd p :: EA) g2 (tr ++ [(u, b)]) I2) as (g3 & E3 & I3 & L3).
    { intros x Hx. unfold lits in Hx. rewrite HT2 in Hx. intros [He|He].
      - apply (HDn x); [apply in_or_app; right; exact Hx|auto].
      - revert He. apply HEA. unfold lits. rewrite map_app. cbn [map]. rewrite HT2. apply in_or_app. right. right. exact Hx. }
    { intros x k Hx HkS Hkc _ Hsx. unfold lits in Hx, HkS. rewrite HT2 in Hx, HkS. apply Hk; auto; [apply in_or_app; right; exact Hx|].
      rewrite !in_app_iff in HkS. cbn [In] in HkS. rewrite in_app_iff. destruct HkS as [[[H|H]|[H|[]]]|H]; auto. exfalso. subst k. rewrite pnext_atom in Hsx.
      apply (HDn x); [apply in_or_app; right; exact Hx|auto]. }
    exists g3, u. rewrite E3. split; [reflexivity|]. split; [exact Hu|].
    unfold lits in I3. rewrite HT2 in I3. unfold lits. rewrite map_app. cbn [map]. rewrite HT1, HT2, Ht. rewrite <- !app_assoc in I3. cbn [app] in I3. exact I3.
  Qed.
End Greedy.
Lemma term_eq_dec (a b : term) : {a = b} + {a <> b}.
Proof. destruct (term_eqb a b) eqn:E; [left; apply term_eqb_eq, E|right; intros H; apply term_eqb_eq in H; congruence]. Qed.
Lemma regular_unique l : forall past x y, regular past l -> In x past -> In y past -> snd x = snd y -> In (snd x) (atoms_of l) -> x = y.
Proof.
  induction l as [|[D [p b]] r IH]; intros past x y HR Hx Hy E Ha; [destruct Ha|]. cbn [regular] in HR. destruct HR as (_ & H2 & _ & _ & H5).
  cbn [atoms_of map fst snd In] in Ha. destruct Ha as [Ha|Ha].
  - rewrite (H2 x Hx) by auto. rewrite (H2 y Hy) by congruence. reflexivity.
  - apply (IH _ x y H5); auto; apply in_or_app; left; assumption.
Qed.
Section Run.
  Variable concl : list lit.
  Lemma greedy_regular l : forall past EA g tr, inv concl past EA g -> regular past l ->
    (forall x, In x (flat_map (fun e => lits (fst e)) l) -> ~ In (snd x) EA) ->
    (forall k, In k past \/ In k (flat_map (fun e => lits (fst e)) l) -> ~ In k concl -> In (snd k) EA \/ In (snd k) (atoms_of l)) ->
    (forall x, In x concl -> ~ In (snd x) (atoms_of l)) ->
    exists g' ts EA', fold_left (greedy_clause_t concl) (map fst l) (g, tr) = (g', tr ++ ts) /\
      map (fun e => (remove_all_negations (fst e), snd e)) ts = map snd l /\
      inv concl (past ++ flat_map (fun e => lits (fst e)) l) EA' g' /\ forall a, In a EA' <-> In a EA \/ In a (atoms_of l).
  Proof.
    induction l as [|[D [p b]] r IH]; intros past EA g tr HI HR HEA Hk Hc.
    - exists g, [], EA. cbn. rewrite !app_nil_r. split; [reflexivity|]. split; [reflexivity|]. split; [exact HI|tauto].
    - pose proof HR as HR0. cbn [regular] in HR. destruct HR as (H1 & H2 & (D1 & D2 & HD & HDn) & H4 & H5).
      cbn [flat_map fst] in *. cbn [atoms_of map fst snd In] in Hk, Hc. fold (atoms_of r) in *.
      destruct (clause_regular concl D p b past EA g tr D1 D2) as (g1 & t & E1 & Ht & I1).
      + exact HI.
      + exact HD.
      + exact HDn.
      + intros x Hx. apply HEA. apply in_or_app. left. exact Hx.
      + assert (HxD : forall x, In x (D1 ++ D2) -> In x (lits D)) by (intros x Hx; rewrite HD; apply in_app_or in Hx; apply in_or_app; cbn [In]; tauto).
        intros x k Hx Hkin Hkc Hs. apply (regular_unique r (past ++ lits D)); [exact H5| | |exact Hs|].
        * apply in_or_app. destruct Hkin as [Hkin|Hkin]; auto.
        * apply in_or_app. auto.
        * destruct (Hk k) as [Ha|[Ha|Ha]]; [|exact Hkc| | |exact Ha].
          -- destruct Hkin as [Hkin|Hkin]; [left; exact Hkin|right; apply in_or_app; left; auto].
          -- exfalso. rewrite Hs in Ha. apply (HEA x); [apply in_or_app; left; auto|exact Ha].
          -- exfalso. apply (HDn x Hx). congruence.
      + exact H1.
      + exact H2.
      + intros Hin. apply (Hc _ Hin). left. symmetry. apply pcur_atom.
      + intros Hin. apply (Hc _ Hin). left. symmetry. apply pnext_atom.
      + cbn [map fold_left fst]. rewrite E1. destruct (IH (past ++ lits D) (snd p :: EA) g1 (tr ++ [(t, b)]) I1 H5) as (g2 & ts & EA' & E2 & Hts & I2 & HEA').
        * intros x Hx [Ha|Ha].
          -- apply in_flat_map in Hx. destruct Hx as [e [He Hx]]. apply (H4 (fst e) x); [apply in_map, He|exact Hx|auto].
          -- apply (HEA x); [apply in_or_app; right; exact Hx|exact Ha].
        * intros k Hin Hkc. cbn [In]. rewrite in_app_iff in Hin. destruct (Hk k) as [Ha|[Ha|Ha]]; auto. rewrite in_app_iff. tauto.
        * intros x Hx Ha. apply (Hc x Hx). right. exact Ha.
        * exists g2, ((t, b) :: ts), EA'. rewrite E2, <- app_assoc. split; [reflexivity|]. split; [cbn [map fst snd]; rewrite Ht, Hts; reflexivity|].
          rewrite <- app_assoc in I2. split; [exact I2|]. intros a. rewrite HEA'. cbn [In atoms_of map fst snd]. fold (atoms_of r). tauto.
  Qed.
End Run.
Lemma greedy_t_regular c p0 l : regular_step c p0 l -> exists ts, greedy_t c (p0 :: map fst l) = ROk (false, ts) /\
  map (fun e => (remove_all_negations (fst e), snd e)) ts = map snd l.
Proof.
  intros [HR Hc]. unfold greedy_t. set (concl := set_of lit_eqb (map remove_all_negations c)).
  assert (Hcc : forall x, In x concl <-> In x (lits c)) by (intros x; apply (set_of_In _ lit_eqb_eq)).
  unfold greedy_run_t. cbn [fold_left].
  assert (I0 : inv concl [] [] (mkG [] [] false)).
  { constructor; cbn; tauto. }
  destruct (steps_keep concl p0 [] [] (mkG [] [] false) [] I0) as (g1 & E1 & I1 & _).
  - intros x _ [].
  - intros x k Hx Hk Hkc _ Hs. destruct Hk as [[]|Hk]. apply (regular_unique l (lits p0)); auto.
    destruct (in_dec term_eq_dec (snd k) (atoms_of l)) as [Ha|Ha]; [exact Ha|]. exfalso. apply Hkc, Hcc, Hc. split; [|exact Ha]. apply in_or_app. left. exact Hk.
  - assert (Es : greedy_clause_t concl (mkG [] [] false, []) p0 = (g1, [])) by exact E1. rewrite !Es. cbn [app] in I1.
    destruct (greedy_regular concl l (lits p0) [] g1 [] I1 HR) as (g2 & ts & EA' & E2 & Hts & I2 & HEA).
    + intros x _ [].
    + intros k Hk Hkc. right. destruct (in_dec term_eq_dec (snd k) (atoms_of l)) as [Ha|Ha]; [exact Ha|]. exfalso. apply Hkc, Hcc, Hc. split; [|exact Ha]. apply in_or_app. exact Hk.
    + intros x Hx. apply Hcc, Hc in Hx. tauto.
    + rewrite E2. cbn [fst snd app]. exists ts. split; [|exact Hts]. unfold greedy_final_t.
      assert (Hf : filter (fun e => negb (snd e)) (g_piv g2) = []).
      { destruct (filter (fun e : lit * bool => negb (snd e)) (g_piv g2)) as [|[k bb] rr] eqn:Ef; [reflexivity|]. exfalso.
        assert (Hin : In (k, bb) (filter (fun e : lit * bool => negb (snd e)) (g_piv g2))) by (rewrite Ef; left; reflexivity).
        apply filter_In in Hin. destruct Hin as [Hin Hb]. cbn in Hb. destruct bb; [discriminate|].
        apply (inv_false _ _ _ _ I2 k Hin). apply HEA. right.
        destruct (inv_keys _ _ _ _ I2 k) as [Hkc Hkin]; [apply in_map_iff; exists (k, false); auto|].
        destruct (in_dec term_eq_dec (snd k) (atoms_of l)) as [Ha|Ha]; [exact Ha|]. exfalso. apply Hkc, Hcc, Hc. split; [exact Hkin|exact Ha]. }
      rewrite Hf. assert (Hall : forallb (fun x => memb lit_eqb x (g_work g2)) concl = true).
      { apply forallb_forall. intros x Hx. apply (memb_In _ lit_eqb_eq). apply (inv_work _ _ _ _ I2). split; [exact Hx|]. apply Hcc, Hc in Hx. apply Hx. }
      rewrite Hall. reflexivity.
Qed.

Lemma dedup_by_nodup {A} (l : list (nat * A)) : NoDup (map fst l) -> dedup_by Nat.eqb fst l = l.
Proof.
  induction l as [|[i x] l IH]; intros H; [reflexivity|]. cbn [map fst] in H. apply NoDup_cons_iff in H. destruct H as [Hn H]. cbn [dedup_by fst]. rewrite (IH H). f_equal.
  clear - Hn. induction l as [|[j y] l IH]; [reflexivity|]. cbn [filter fst]. cbn [map fst In] in Hn. destruct (Nat.eqb i j) eqn:E; [apply Nat.eqb_eq in E; subst; exfalso; auto|].
  cbn [negb]. f_equal. apply IH. tauto.
Qed.
Section ElabRes.
  Variable other : bool -> string -> crule.
  Notation accepted := (accepted other).
  (** A regular resolution step elaborates to an accepted step with the same clause and premises. *)
  Theorem elab_resolution_ok cx name c ps p0 l : map eclause (map snd ps) = p0 :: map fst l -> l <> [] -> NoDup (map fst ps) -> Forall (accepted cx) (map snd ps) ->
    regular_step c p0 l ->
    exists args, elab_resolution name c ps [] = ROk (EStep c "resolution" (map snd ps) args) /\ pivots args (map snd l) /\
      accepted cx (EStep c "resolution" (map snd ps) args).
  Proof.
    intros Hps Hne HN HF HR. pose proof HR as HR0. destruct (greedy_t_regular c p0 l HR) as (ts & Eg & Hts).
    exists (pivot_args ts).
    assert (Hpv : pivots (pivot_args ts) (map snd l)).
    { rewrite <- Hts. clear. induction ts as [|[t b] ts IH]; cbn [pivot_args flat_map map fst snd app]; [constructor|]. destruct b; constructor; exact IH. }
    assert (Hgen : general_resolution c ps = ROk (EStep c "resolution" (map snd ps) (pivot_args ts))).
    { unfold general_resolution. rewrite (dedup_by_nodup ps HN), Hps, Eg. reflexivity. }
    split; [|split; [exact Hpv|]].
    - destruct l as [|[D [p b]] r]; [congruence|]. cbn [map fst] in Hps.
      destruct (map snd ps) as [|n1 [|n2 ns]] eqn:Eps; cbn [map] in Hps; try discriminate. injection Hps as Hn1 Hn2 Hns.
      unfold elab_resolution. rewrite Eps. destruct c as [|c0 c1]; [|exact Hgen].
      assert (Hex : existsb (fun q => match eclause q with [] => true | _ => false end) (n1 :: n2 :: ns) = false).
      { destruct HR as [HR _]. assert (G : forall l past, regular past l -> forall E, In E (map fst l) -> E <> []).
        { clear. induction l as [|[D [p b]] l IH]; intros past H E Hin; [destruct Hin|]. cbn [regular] in H. destruct H as (_ & _ & (D1 & D2 & HD & _) & _ & H). destruct Hin as [<-|Hin]; [|eapply IH; eauto].
          cbn [fst]. intros E. rewrite E in HD. destruct D1; discriminate. }
        assert (Hp0 : p0 <> []) by (destruct HR as [HR _]; intros ->; destruct HR).
        destruct (existsb _ _) eqn:Ex; [|reflexivity]. exfalso. apply existsb_exists in Ex. destruct Ex as [q [Hq Eq]]. destruct (eclause q) eqn:Ec; [|discriminate].
        destruct Hq as [<-|Hq]; [congruence|]. apply (in_map eclause) in Hq. cbn [map] in Hq. rewrite Hn2, Hns, Ec in Hq. revert Hq.
        intros Hq. apply (G _ _ HR [] Hq). reflexivity. }
      rewrite Hex. rewrite Hgen. reflexivity.
    - apply accepted_step. split; [|exact HF]. apply (run_plain other "resolution" r_resolution_with_args); [cbn; tauto|]. cbn [ra_concl ra_prems ra_args].
      apply resolution_with_args_exact. rewrite Hps. destruct l as [|[D [p b]] r]; [congruence|]. exists p0, D, (map fst r), (map snd ((D, (p, b)) :: r)).
      split; [reflexivity|]. split; [exact Hpv|]. split; [cbn; rewrite !map_length; reflexivity|].
      replace (combine (D :: map fst r) (map snd ((D, (p, b)) :: r))) with ((D, (p, b)) :: r)
        by (change (D :: map fst r) with (map fst ((D, (p, b)) :: r)); generalize ((D, (p, b)) :: r); clear; induction l as [|[x y] l IH]; [reflexivity|]; cbn; f_equal; exact IH).
      destruct HR0 as [HR1 Hc]. apply (regular_chain _ (lits p0)); auto. intros x. rewrite Hc. unfold all_lits. rewrite in_app_iff. reflexivity.
  Qed.
  (** the empty clause from [(not true)] *)
  Theorem elab_resolution_true_ok cx name p : accepted cx p -> eclause p = [tNot tTrue] ->
    exists n i, elab_resolution name [] [(i, p)] [] = ROk n /\ eclause n = [] /\ accepted cx n.
  Proof.
    intros Ha Hp. eexists. exists 0. unfold elab_resolution. cbn [map snd]. rewrite Hp, term_eqb_rf. split; [reflexivity|]. split; [reflexivity|].
    apply accepted_step. cbn [map eclause]. rewrite Hp. split; [apply (run_plain other "resolution" r_resolution_with_args); [cbn; tauto|vm_compute; reflexivity]|].
    constructor; [exact Ha|]. constructor; [|constructor]. apply accepted_step. split; [|constructor]. apply (run_plain other "true" r_true); [cbn; tauto|reflexivity].
  Qed.
End ElabRes.
