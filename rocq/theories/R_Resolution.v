(** resolution.rs and checker/rules/resolution.rs. *)
From Coq Require Import List String ZArith QArith Bool Arith NArith Lia.
From Verif Require Import Term Field Sem Sorting Base Rules R_Taut.
Import ListNotations.
Local Open Scope nat_scope.

(** Rc<Term>::remove_all_negations, ast/term.rs:1023-1032 *)
Fixpoint remove_all_negations (t : term) : nat * term :=
  match t with
  | TOp o [a] => if op_eqb o ONot then let (n, u) := remove_all_negations a in (S n, u) else (0, t)
  | _ => (0, t)
  end.
(** remove_all_negations_with_polarity, 1034-1039 *)
Definition rm_neg_polarity (t : term) : bool * term :=
  let (n, u) := remove_all_negations t in (Nat.even n, u).
(** literal_to_term, resolution.rs:59-65 *)
Definition literal_to_term (l : nat * term) : term := Nat.iter (fst l) tNot (snd l).

Definition lit_eqb (a b : nat * term) : bool := Nat.eqb (fst a) (fst b) && term_eqb (snd a) (snd b).
Definition blit_eqb (a b : bool * term) : bool := Bool.eqb (fst a) (fst b) && term_eqb (snd a) (snd b).
Lemma lit_eqb_eq a b : lit_eqb a b = true <-> a = b.
Proof.
  destruct a, b. unfold lit_eqb; simpl. rewrite andb_true_iff, Nat.eqb_eq, term_eqb_eq.
  split; [intros [-> ->]; reflexivity|intros H; injection H; auto].
Qed.
Lemma blit_eqb_eq a b : blit_eqb a b = true <-> a = b.
Proof.
  destruct a, b. unfold blit_eqb; simpl. rewrite andb_true_iff, eqb_true_iff, term_eqb_eq.
  split; [intros [-> ->]; reflexivity|intros H; injection H; auto].
Qed.

(** IndexSet: a list without duplicates, insertion order *)
Definition set_insert {A} (eqb : A -> A -> bool) (a : A) (s : list A) : list A :=
  if memb eqb a s then s else s ++ [a].
Definition set_of {A} (eqb : A -> A -> bool) (l : list A) : list A :=
  fold_left (fun s a => set_insert eqb a s) l [].
(** swap_remove; the order of the remaining elements is not observable where it is used *)
Definition set_remove {A} (eqb : A -> A -> bool) (a : A) (s : list A) : list A :=
  filter (fun b => negb (eqb a b)) s.

(** ** greedy_resolution, resolution.rs:72-227.
    Literals are (number of negations, inner term); [below] of a literal without negations does not
    exist as a key (-1 in Rust).  [pivots] maps a literal to "already eliminated". *)
Definition pivmap := list ((nat * term) * bool).
Definition piv_get (p : pivmap) (l : nat * term) : option bool :=
  match find (fun e => lit_eqb l (fst e)) p with Some e => Some (snd e) | None => None end.
Definition piv_set_true (p : pivmap) (l : nat * term) : pivmap :=
  map (fun e => if lit_eqb l (fst e) then (fst e, true) else e) p.
(** or_insert(false), 172 *)
Definition piv_or_insert (p : pivmap) (l : nat * term) : pivmap :=
  match piv_get p l with Some _ => p | None => p ++ [(l, false)] end.
(** try_eliminate, 137-143 *)
Definition try_elim (p : pivmap) (l : nat * term) : option pivmap :=
  match piv_get p l with Some _ => Some (piv_set_true p l) | None => None end.

Record gstate := mkG { g_work : list (nat * term); g_piv : pivmap; g_elim : bool }.

(** body of the inner loop, 118-174 *)
Definition greedy_lit (concl : list (nat * term)) (g : gstate) (t : term) : gstate :=
  let l := remove_all_negations t in
  let (n, inner) := l in
  if memb lit_eqb l concl && negb (memb lit_eqb l (g_work g))
  then mkG (set_insert lit_eqb l (g_work g)) (g_piv g) (g_elim g)
  else
    let elim :=
      if g_elim g then None
      else match (match n with O => None | S m => try_elim (g_piv g) (m, inner) end) with
           | Some p => Some p
           | None => try_elim (g_piv g) (S n, inner)
           end in
    match elim with
    | Some p => mkG (g_work g) p true
    | None =>
        if memb lit_eqb l concl then mkG (set_insert lit_eqb l (g_work g)) (g_piv g) (g_elim g)
        else mkG (g_work g) (piv_or_insert (g_piv g) l) (g_elim g)
    end.
Definition greedy_clause (concl : list (nat * term)) (g : gstate) (p : clause) : gstate :=
  fold_left (greedy_lit concl) p (mkG (g_work g) (g_piv g) false).
Definition greedy_run (concl : list (nat * term)) (ps : list clause) : gstate :=
  fold_left (greedy_clause concl) ps (mkG [] [] false).
(** 179-226 *)
Definition greedy_final (concl : list (nat * term)) (g : gstate) : outcome unit :=
  match filter (fun e => negb (snd e)) (g_piv g) with
  | [] => rassert (forallb (fun l => memb lit_eqb l (g_work g)) concl)
  | [((i, pivot), _)] =>
      if (match concl with [] => true | _ => false end) && Nat.eqb i 0 && is_false pivot then ROk tt
      else match concl with
           | [(j, ct)] => rassert (term_eqb ct pivot && Nat.eqb (i mod 2) (j mod 2))
           | _ => RErr
           end
  | _ => RErr
  end.
Definition greedy_resolution (c : clause) (ps : list clause) : outcome unit :=
  let concl := set_of lit_eqb (map remove_all_negations c) in
  greedy_final concl (greedy_run concl ps).

(** ** rup_resolution, rules/resolution.rs:43-82 *)
Definition rup_init (c : clause) (ps : list clause) : list (list (bool * term)) :=
  map (fun p => set_of blit_eqb (map rm_neg_polarity p)) ps
  ++ map (fun t => let (b, u) := rm_neg_polarity t in [(negb b, u)]) c.
(** min_by_key(len): the first of the shortest clauses *)
Fixpoint smallest {A} (c : list A) (cs : list (list A)) : list A :=
  match cs with
  | [] => c
  | d :: r => if Nat.ltb (List.length d) (List.length c) then smallest d r else smallest c r
  end.
Fixpoint rup_loop (fuel : nat) (cs : list (list (bool * term))) : option bool :=
  match fuel with
  | O => None
  | S f =>
      match cs with
      | [] => Some false
      | c0 :: r =>
          match smallest c0 r with
          | [] => Some true
          | [l] =>
              let nl := (negb (fst l), snd l) in
              rup_loop f (map (set_remove blit_eqb nl) (filter (fun c => negb (memb blit_eqb l c)) cs))
          | _ => Some false
          end
      end
  end.
Definition rup_resolution (c : clause) (ps : list clause) : bool :=
  let cs := rup_init c ps in
  match rup_loop (S (List.length cs)) cs with Some b => b | None => false end.

(** ** Generic resolution with pivots, rules/resolution.rs:133-203 *)
Fixpoint chunks2 {A} (l : list A) : list (A * A) :=
  match l with a :: b :: r => (a, b) :: chunks2 r | _ => [] end.
Definition parse_pivot (p : term * term) : outcome ((nat * term) * bool) :=
  let pivot := remove_all_negations (fst p) in
  if is_true (snd p) then ROk (pivot, true)
  else if is_false (snd p) then ROk (pivot, false) else RErr.
(** remove first occurrence (Vec) *)
Fixpoint vec_remove (l : nat * term) (c : list (nat * term)) : list (nat * term) :=
  match c with [] => [] | a :: r => if lit_eqb a l then r else a :: vec_remove l r end.
Section Generic.
  (* the ClauseCollection operations *)
  Variable insert : (nat * term) -> list (nat * term) -> list (nat * term).
  Variable remove : (nat * term) -> list (nat * term) -> list (nat * term).
  Fixpoint insert_next (found : bool) (pin : nat * term) (cur : list (nat * term)) (next : clause)
    : bool * list (nat * term) :=
    match next with
    | [] => (found, cur)
    | t :: r =>
        let l := remove_all_negations t in
        if negb found && lit_eqb l pin then insert_next true pin cur r
        else insert_next found pin (insert l cur) r
    end.
  Definition binary_resolution (cur : list (nat * term)) (next : clause) (pivot : nat * term) (pol : bool)
    : outcome (list (nat * term)) :=
    let np := (S (fst pivot), snd pivot) in
    let (pc, pn) := if pol then (pivot, np) else (np, pivot) in
    rassert (memb lit_eqb pc cur) ;;
    let (found, cur') := insert_next false pn (remove pc cur) next in
    rassert found ;; ROk cur'.
  Fixpoint res_chain (cur : list (nat * term)) (steps : list (clause * ((nat * term) * bool)))
    : outcome (list (nat * term)) :=
    match steps with
    | [] => ROk cur
    | (p, (pivot, pol)) :: r => do cur' <- binary_resolution cur p pivot pol ; res_chain cur' r
    end.
  Variable init : clause -> list (nat * term).
  Definition generic_resolution (ps : list clause) (args : list term) : outcome (list (nat * term)) :=
    match ps with
    | p0 :: ((_ :: _) as rest) =>
        len_is args (List.length rest * 2) ;;
        do pv <- omap parse_pivot (chunks2 args) ;
        res_chain (init p0) (combine rest pv)
    | _ => RErr
    end.
End Generic.
(** 84-102 *)
Definition r_resolution_with_args (c : clause) (ps : list clause) (args : list term) : outcome unit :=
  do res <- generic_resolution (set_insert lit_eqb) (set_remove lit_eqb)
              (fun p => set_of lit_eqb (map remove_all_negations p)) ps args ;
  let concl := set_of lit_eqb (map remove_all_negations c) in
  rassert (forallb (fun l => memb lit_eqb l res) concl) ;;
  rassert (forallb (fun l => memb lit_eqb l concl) res).
(** 104-131 *)
Definition r_strict_resolution (c : clause) (ps : list clause) (args : list term) : outcome unit :=
  do res <- generic_resolution (fun l cur => cur ++ [l]) vec_remove (map remove_all_negations) ps args ;
  rassert (Nat.eqb (List.length c) (List.length res)) ;;
  ofor (fun p => if lit_eqb (fst p) (remove_all_negations (snd p)) then ROk tt
                 else teq (literal_to_term (fst p)) (snd p)) (combine res c).
(** 8-41 *)
Definition r_resolution (c : clause) (ps : list clause) (args : list term) : outcome unit :=
  match args with
  | _ :: _ => r_resolution_with_args c ps args
  | [] =>
      match c, ps with
      | [], [[t]] => if term_eqb t (tNot tTrue) then ROk tt else RErr
      | _, _ =>
          len_ge ps 2 ;;
          match greedy_resolution c ps with
          | ROk _ => ROk tt
          | _ => rassert (rup_resolution c ps)
          end
      end
  end.
(** 205-220 *)
Fixpoint taut_loop (seen : list (bool * term)) (l : list (bool * term)) : bool :=
  match l with
  | [] => false
  | (b, t) :: r => if memb blit_eqb (negb b, t) seen then true else taut_loop (set_insert blit_eqb (b, t) seen) r
  end.
Definition r_tautology (c : clause) (ps : list clause) (args : list term) : outcome unit :=
  len_is ps 1 ;; len_is c 1 ;;
  do l <- idx c 0 ; rassert (is_true l) ;;
  do p <- idx ps 0 ; rassert (taut_loop [] (map rm_neg_polarity p)).
(** 222-241; MultiSet (utils.rs) is a map from terms to number of occurrences *)
Definition count (t : term) (l : list term) : nat := List.length (filter (term_eqb t) l).
Definition r_contraction (c : clause) (ps : list clause) (args : list term) : outcome unit :=
  len_is ps 1 ;;
  do p <- idx ps 0 ;
  ofor (fun t => rassert (negb (Nat.eqb (count t c) 0)) ;; rassert (Nat.leb (count t c) (count t p))) p ;;
  ofor (fun t => rassert (Nat.leb (count t c) (count t p))) c.

(** ** Meaning of literals *)
Section Lit.
  Context {I : interp} (E : env I).
  Definition hlit (l : nat * term) : bool := if Nat.even (fst l) then holds E (snd l) else negb (holds E (snd l)).
  Definition hblit (l : bool * term) : bool := if fst l then holds E (snd l) else negb (holds E (snd l)).
  Definition hlits (c : list (nat * term)) : Prop := exists l, In l c /\ hlit l = true.
  Definition hblits (c : list (bool * term)) : Prop := exists l, In l c /\ hblit l = true.

  Lemma even_S n : Nat.even (S n) = negb (Nat.even n).
  Proof. rewrite Nat.even_succ, <- Nat.negb_even. reflexivity. Qed.
  Lemma hlit_S n t : hlit (S n, t) = negb (hlit (n, t)).
  Proof. unfold hlit; cbn [fst snd]. rewrite even_S. destruct (Nat.even n); simpl; rewrite ?negb_involutive; reflexivity. Qed.
  Lemma remove_all_negations_sem t : hlit (remove_all_negations t) = holds E t.
  Proof.
    induction t using term_ind'; try reflexivity. cbn [remove_all_negations].
    destruct args as [|a [|b r]]; try reflexivity.
    destruct (op_eqb o ONot) eqn:Eo; [|reflexivity]. apply op_eqb_eq in Eo. subst o.
    inversion H; subst. rewrite holds_not'. destruct (remove_all_negations a) as [n u].
    rewrite hlit_S. rewrite H2. reflexivity.
  Qed.
  Lemma rm_neg_polarity_sem t : hblit (rm_neg_polarity t) = holds E t.
  Proof.
    rewrite <- remove_all_negations_sem. unfold rm_neg_polarity. destruct (remove_all_negations t). reflexivity.
  Qed.
  Lemma holds_lits c : clause_holds E c <-> hlits (map remove_all_negations c).
  Proof.
    unfold clause_holds, hlits. split.
    - intros [l [H1 H2]]. exists (remove_all_negations l). split; [apply in_map; auto|].
      rewrite remove_all_negations_sem. auto.
    - intros [l [H1 H2]]. apply in_map_iff in H1. destruct H1 as [t [<- Ht]].
      rewrite remove_all_negations_sem in H2. eauto.
  Qed.
  Lemma holds_blits c : clause_holds E c <-> hblits (map rm_neg_polarity c).
  Proof.
    unfold clause_holds, hblits. split.
    - intros [l [H1 H2]]. exists (rm_neg_polarity l). split; [apply in_map; auto|].
      rewrite rm_neg_polarity_sem. auto.
    - intros [l [H1 H2]]. apply in_map_iff in H1. destruct H1 as [t [<- Ht]].
      rewrite rm_neg_polarity_sem in H2. eauto.
  Qed.
  Lemma literal_to_term_sem l : holds E (literal_to_term l) = hlit l.
  Proof.
    destruct l as [n t]. unfold literal_to_term; cbn [fst snd]. induction n; [reflexivity|].
    rewrite hlit_S, <- IHn. reflexivity.
  Qed.
  Lemma hlits_incl c d : incl c d -> hlits c -> hlits d.
  Proof. intros H [l [H1 H2]]. exists l; auto. Qed.
  Lemma hblits_incl c d : incl c d -> hblits c -> hblits d.
  Proof. intros H [l [H1 H2]]. exists l; auto. Qed.
End Lit.

Section Sets.
  Context {A : Type} (eqb : A -> A -> bool) (Heq : forall a b, eqb a b = true <-> a = b).
  Lemma set_insert_In a s x : In x (set_insert eqb a s) <-> x = a \/ In x s.
  Proof.
    unfold set_insert. destruct (memb eqb a s) eqn:Em.
    - apply (memb_In eqb Heq) in Em. split; [auto|intros [->|]; auto].
    - rewrite in_app_iff. simpl. intuition.
  Qed.
  Lemma set_of_In l x : In x (set_of eqb l) <-> In x l.
  Proof.
    unfold set_of. assert (H : forall l s, In x (fold_left (fun s a => set_insert eqb a s) l s) <-> In x s \/ In x l).
    { clear l. induction l as [|a r IH]; intros s; simpl; [intuition|]. rewrite IH, set_insert_In. intuition. }
    rewrite H. simpl. intuition.
  Qed.
  Lemma set_remove_In a s x : In x (set_remove eqb a s) <-> In x s /\ x <> a.
  Proof.
    unfold set_remove. rewrite filter_In. split; intros [H1 H2]; split; auto.
    - intros ->. assert (eqb a a = true) by (apply Heq; reflexivity). rewrite H in H2. discriminate.
    - destruct (eqb a x) eqn:Ex; [|reflexivity]. apply Heq in Ex. congruence.
  Qed.
End Sets.

(** ** Soundness of resolution with pivots *)
Section Binary.
  Context {I : interp} (E : env I).
  Notation hlits := (hlits E). Notation hlit := (hlit E).
  Variables (insert remove : (nat * term) -> list (nat * term) -> list (nat * term)).
  Hypothesis Hins : forall l c x, In x (insert l c) <-> x = l \/ In x c.
  Hypothesis Hrem : forall l c x, In x c -> x <> l -> In x (remove l c).

  Lemma insert_next_spec pin next : forall found cur b cur',
    insert_next insert found pin cur next = (b, cur') ->
    incl cur cur' /\
    (forall l, In l (map remove_all_negations next) -> In l cur' \/ l = pin).
  Proof.
    induction next as [|t r IH]; intros found cur b cur' H; simpl in H.
    - injection H as <- <-. split; [apply incl_refl|intros l []].
    - destruct (negb found && lit_eqb (remove_all_negations t) pin) eqn:Eb.
      + apply andb_true_iff in Eb. destruct Eb as [_ Eb]. apply lit_eqb_eq in Eb.
        apply IH in H. destruct H as [H1 H2]. split; auto.
        intros l [<-|Hl]; auto.
      + apply IH in H. destruct H as [H1 H2]. split.
        * intros x Hx. apply H1, Hins. auto.
        * intros l [<-|Hl]; auto. left. apply H1, Hins. auto.
  Qed.
  Lemma binary_resolution_sound cur next pivot pol cur' :
    binary_resolution insert remove cur next pivot pol = ROk cur' ->
    hlits cur -> clause_holds E next -> hlits cur'.
  Proof.
    unfold binary_resolution. intros H Hc Hn.
    set (np := (S (fst pivot), snd pivot)) in *.
    assert (Hneg : hlit np = negb (hlit pivot)) by (unfold np; rewrite hlit_S; destruct pivot; reflexivity).
    destruct (if pol then (pivot, np) else (np, pivot)) as [pc pn] eqn:Ep.
    assert (Hcn : hlit pn = negb (hlit pc)).
    { destruct pol; injection Ep as <- <-; rewrite Hneg; rewrite ?negb_involutive; reflexivity. }
    rinv. destruct (insert_next insert false pn (remove pc cur) next) as [found cur''] eqn:En. rinv.
    apply insert_next_spec in En. destruct En as [Hi1 Hi2].
    apply holds_lits in Hn. destruct Hn as [ln [Hln Hhn]]. destruct Hc as [lc [Hlc Hhc]].
    destruct (hlit pc) eqn:Epc.
    - exists ln. split; auto. destruct (Hi2 ln Hln) as [|Hx]; auto. subst ln. simpl in Hcn. congruence.
    - exists lc. split; auto. apply Hi1, Hrem; auto. congruence.
  Qed.
  Lemma res_chain_sound steps : forall cur cur',
    res_chain insert remove cur steps = ROk cur' ->
    hlits cur -> (forall p, In p (map fst steps) -> clause_holds E p) -> hlits cur'.
  Proof.
    induction steps as [|[p [pv pol]] r IH]; intros cur cur' H Hc Hs; simpl in H.
    - rinv. auto.
    - apply obind_ok in H. destruct H as [c1 [H1 H2]]. eapply IH; eauto.
      + eapply binary_resolution_sound; eauto. apply Hs. left; reflexivity.
      + intros q Hq. apply Hs. right; auto.
  Qed.
  Variable init : clause -> list (nat * term).
  Hypothesis Hinit : forall p x, In x (init p) <-> In x (map remove_all_negations p).
  Lemma combine_fst_In {A B} (l : list A) (m : list B) x : In x (map fst (combine l m)) -> In x l.
  Proof. intros H. apply in_map_iff in H. destruct H as [[a b] [<- H]]. apply in_combine_l in H. auto. Qed.
  Lemma generic_resolution_sound ps args res :
    generic_resolution insert remove init ps args = ROk res ->
    (forall p, In p ps -> clause_holds E p) -> hlits res.
  Proof.
    unfold generic_resolution. destruct ps as [|p0 [|p1 rest]]; try discriminate. intros H Hps.
    apply obind_ok in H. destruct H as [[] [_ H]]. apply obind_ok in H. destruct H as [pv [_ H]].
    apply res_chain_sound in H; auto.
    - eapply hlits_incl; [|apply holds_lits, Hps; left; reflexivity]. intros x Hx. apply Hinit. auto.
    - intros p Hp. apply combine_fst_In in Hp. apply Hps. right; auto.
  Qed.
End Binary.

Lemma vec_remove_In l c x : In x c -> x <> l -> In x (vec_remove l c).
Proof.
  induction c as [|a r IH]; simpl; [auto|]. intros [->|H] Hn.
  - destruct (lit_eqb x l) eqn:El; [apply lit_eqb_eq in El; congruence|left; auto].
  - destruct (lit_eqb a l); simpl; auto.
Qed.

Lemma r_resolution_with_args_entails c ps args : r_resolution_with_args c ps args = ROk tt -> entails ps c.
Proof.
  intros H I E HE HP. unfold r_resolution_with_args in H.
  apply obind_ok in H. destruct H as [res [Hr H]]. apply obind_ok in H. destruct H as [[] [H1 H2]].
  apply rassert_ok in H1, H2. apply holds_lits.
  eapply (generic_resolution_sound E) in Hr; eauto.
  - eapply hlits_incl; [|exact Hr]. intros x Hx. rewrite forallb_forall in H2. specialize (H2 x Hx).
    apply (memb_In _ lit_eqb_eq) in H2. rewrite (set_of_In _ lit_eqb_eq) in H2. auto.
  - intros. apply set_insert_In, lit_eqb_eq.
  - intros. apply (set_remove_In _ lit_eqb_eq). auto.
  - intros. apply set_of_In, lit_eqb_eq.
Qed.
Lemma r_strict_resolution_entails c ps args : r_strict_resolution c ps args = ROk tt -> entails ps c.
Proof.
  intros H I E HE HP. unfold r_strict_resolution in H.
  apply obind_ok in H. destruct H as [res [Hr H]]. apply obind_ok in H. destruct H as [[] [H1 H2]].
  apply rassert_ok, Nat.eqb_eq in H1.
  eapply (generic_resolution_sound E) in Hr; eauto.
  - destruct Hr as [l [Hl Hh]]. apply ofor_combine_ok in H2; [|auto].
    clear H1. induction H2; [destruct Hl|].
    apply clause_holds_cons. destruct Hl as [<-|Hl]; [left|right; auto].
    cbn [fst snd] in H. destruct (lit_eqb x (remove_all_negations y)) eqn:El.
    + apply lit_eqb_eq in El. rewrite El, remove_all_negations_sem in Hh. auto.
    + rinv. rewrite literal_to_term_sem. auto.
  - intros. simpl. rewrite in_app_iff. simpl. intuition.
  - intros. apply vec_remove_In; auto.
  - intros. reflexivity.
Qed.

(** ** RUP *)
Section Rup.
  Context {I : interp} (E : env I).
  Notation hblit := (hblit E). Notation hblits := (hblits E).
  Lemma smallest_In {A} (cs : list (list A)) : forall c, In (smallest c cs) (c :: cs).
  Proof.
    induction cs as [|d r IH]; intros c; simpl; [auto|]. destruct (Nat.ltb _ _).
    - right. apply IH.
    - destruct (IH c) as [H|H]; auto.
  Qed.
  Lemma rup_loop_sound fuel : forall cs, rup_loop fuel cs = Some true -> (forall c, In c cs -> hblits c) -> False.
  Proof.
    induction fuel as [|f IH]; intros cs H Hc; simpl in H; [discriminate|].
    destruct cs as [|c0 r]; [discriminate|].
    pose proof (smallest_In r c0) as Hs. pose proof (Hc _ Hs) as Hh.
    destruct (smallest c0 r) as [|l [|l2 r2]] eqn:Es.
    - destruct Hh as [x [[] _]].
    - destruct Hh as [x [[<-|[]] Hx]]. eapply IH in H; eauto.
      intros c Hin. apply in_map_iff in Hin. destruct Hin as [d [<- Hd]]. apply filter_In in Hd. destruct Hd as [Hd _].
      destruct (Hc d Hd) as [y [Hy1 Hy2]]. exists y. split; auto.
      apply (set_remove_In _ blit_eqb_eq). split; auto. intros ->.
      unfold R_Resolution.hblit in *. cbn [fst snd] in *. destruct (fst l), (holds E (snd l)); simpl in *; congruence.
    - discriminate.
  Qed.
End Rup.
Lemma filter_length_le {A} (f : A -> bool) l : List.length (filter f l) <= List.length l.
Proof. induction l as [|a r IH]; simpl; [lia|]. destruct (f a); simpl; lia. Qed.
Lemma filter_length_lt {A} (f : A -> bool) l x : In x l -> f x = false -> List.length (filter f l) < List.length l.
Proof.
  induction l as [|a r IH]; simpl; [tauto|]. intros [->|H] Hf.
  - rewrite Hf. pose proof (filter_length_le f r). lia.
  - specialize (IH H Hf). destruct (f a); simpl; lia.
Qed.
(** the loop terminates: the fuel used by [rup_resolution] always suffices *)
Lemma rup_loop_terminates fuel : forall cs, List.length cs < fuel -> rup_loop fuel cs <> None.
Proof.
  induction fuel as [|f IH]; intros cs Hl; [lia|]. simpl.
  destruct cs as [|c0 r]; [discriminate|]. pose proof (smallest_In r c0) as Hs.
  destruct (smallest c0 r) as [|l [|l2 r2]] eqn:Es; try discriminate.
  apply IH. rewrite map_length.
  assert (List.length (filter (fun c => negb (memb blit_eqb l c)) (c0 :: r)) < List.length (c0 :: r)); [|lia].
  eapply filter_length_lt; [exact Hs|]. unfold memb; simpl.
  assert (blit_eqb l l = true) by (apply blit_eqb_eq; reflexivity). rewrite H. reflexivity.
Qed.
Lemma rup_resolution_sound c ps : rup_resolution c ps = true -> entails ps c.
Proof.
  unfold rup_resolution. intros H I E HE HP.
  destruct (rup_loop _ _) as [b|] eqn:Er; [|discriminate]. subst b.
  apply clause_holds_b. destruct (existsb (holds E) c) eqn:Ec; [reflexivity|exfalso].
  eapply (rup_loop_sound E); [exact Er|]. intros d Hd. unfold rup_init in Hd. apply in_app_or in Hd.
  destruct Hd as [Hd|Hd]; apply in_map_iff in Hd; destruct Hd as [x [<- Hx]].
  - eapply hblits_incl; [|apply holds_blits, HP; exact Hx]. intros y Hy. apply set_of_In; auto. apply blit_eqb_eq.
  - pose proof (rm_neg_polarity_sem E x) as Hs. destruct (rm_neg_polarity x) as [b u].
    exists (negb b, u). split; [left; reflexivity|].
    assert (Hf : holds E x = false).
    { destruct (holds E x) eqn:Ex; [|reflexivity]. rewrite <- Ec. symmetry. apply existsb_exists. exists x. auto. }
    rewrite Hf in Hs. unfold hblit in *. cbn [fst snd] in *. destruct b, (holds E u); simpl in *; congruence.
Qed.

Lemma taut_loop_sound {I} (E : env I) l : forall seen, taut_loop seen l = true ->
  (exists x, In x seen /\ In (negb (fst x), snd x) l) \/ (exists x, In x l /\ In (negb (fst x), snd x) l).
Proof.
  induction l as [|[b t] r IH]; intros seen H; simpl in H; [discriminate|].
  destruct (memb blit_eqb (negb b, t) seen) eqn:Em.
  - apply (memb_In _ blit_eqb_eq) in Em. left. exists (negb b, t). split; auto. left. simpl. rewrite negb_involutive. reflexivity.
  - apply IH in H. destruct H as [[x [H1 H2]]|[x [H1 H2]]].
    + apply (set_insert_In _ blit_eqb_eq) in H1. destruct H1 as [->|H1].
      * right. exists (b, t). split; [left; auto|right; auto].
      * left. exists x. split; auto. right; auto.
    + right. exists x. split; right; auto.
Qed.
Lemma r_tautology_sound : rule_sound r_tautology.
Proof.
  intros c ps args H _ _ I E HE HP. unfold r_tautology in H. rinv.
  match goal with H : is_true _ = true |- _ => apply is_true_eq in H; subst end.
  apply clause_holds_one. reflexivity.
Qed.
Lemma count_pos t l : count t l <> 0 -> In t l.
Proof.
  unfold count. intros H. destruct (filter (term_eqb t) l) as [|x r] eqn:Ef; [simpl in H; congruence|].
  assert (Hx : In x (filter (term_eqb t) l)) by (rewrite Ef; left; auto).
  apply filter_In in Hx. destruct Hx as [Hx1 Hx2]. apply term_eqb_eq in Hx2. subst; auto.
Qed.
Lemma r_contraction_sound : rule_sound r_contraction.
Proof.
  intros c ps args H _ _ I E HE HP. unfold r_contraction in H. rinv.
  match goal with H : ofor _ ?p = ROk _ |- _ => pose proof (ofor_ok _ _ _ H) as Hf end.
  eapply clause_holds_incl; [|apply HP; left; reflexivity].
  intros t Ht.
  match goal with H1 : ofor _ ?p = ROk _, H2 : ofor _ c = ROk _ |- _ => pose proof (ofor_ok _ _ _ H1 t Ht) as [b Hb] end.
  rinv. match goal with H : negb (Nat.eqb _ _) = true |- _ => apply negb_true_iff, Nat.eqb_neq in H end.
  apply count_pos; auto.
Qed.

(** ** The greedy algorithm *)
(** A sufficient condition under which it is sound: no premise contains a literal together with its
    negation, and no premise literal meets a pivot that was eliminated before (line 172 with an entry
    that is already [true]). *)
Definition no_compl (p : clause) : bool :=
  let ls := map remove_all_negations p in
  forallb (fun l => negb (memb lit_eqb (S (fst l), snd l) ls)) ls.
Definition lit_reuse (concl : list (nat * term)) (g : gstate) (t : term) : bool :=
  let l := remove_all_negations t in
  negb (memb lit_eqb l concl) &&
  match piv_get (g_piv g) l with
  | Some true => negb (negb (g_elim g) && g_elim (greedy_lit concl g t))
  | _ => false
  end.
Fixpoint clause_reuse concl (g : gstate) (p : clause) : bool :=
  match p with [] => false | t :: r => lit_reuse concl g t || clause_reuse concl (greedy_lit concl g t) r end.
Fixpoint run_reuse concl (g : gstate) (ps : list clause) : bool :=
  match ps with
  | [] => false
  | p :: r => clause_reuse concl (mkG (g_work g) (g_piv g) false) p || run_reuse concl (greedy_clause concl g p) r
  end.
Definition greedy_reuse (c : clause) (ps : list clause) : bool :=
  run_reuse (set_of lit_eqb (map remove_all_negations c)) (mkG [] [] false) ps.

Definition open_piv (p : pivmap) : list (nat * term) := map fst (filter (fun e => negb (snd e)) p).
Definition glits (g : gstate) : list (nat * term) := g_work g ++ open_piv (g_piv g).
Definition piv_nodup (p : pivmap) : Prop := NoDup (map fst p).

Lemma lit_eqb_refl l : lit_eqb l l = true.
Proof. apply lit_eqb_eq. reflexivity. Qed.
Lemma piv_get_In p l b : piv_get p l = Some b -> In (l, b) p.
Proof.
  unfold piv_get. destruct (find _ p) as [[k v]|] eqn:Ef; [|discriminate]. intros H; injection H as <-.
  apply find_some in Ef. destruct Ef as [H1 H2]. apply lit_eqb_eq in H2. simpl in *. subst. auto.
Qed.
Lemma piv_get_None p l : piv_get p l = None -> ~ In l (map fst p).
Proof.
  unfold piv_get. destruct (find _ p) as [[k v]|] eqn:Ef; [discriminate|]. intros _ H.
  apply in_map_iff in H. destruct H as [[k v] [<- H]]. pose proof (find_none _ _ Ef _ H) as Hn. simpl in Hn.
  rewrite lit_eqb_refl in Hn. discriminate.
Qed.
Lemma open_piv_In p l : In l (open_piv p) <-> In (l, false) p.
Proof.
  unfold open_piv. rewrite in_map_iff. split.
  - intros [[k v] [<- H]]. apply filter_In in H. destruct H as [H Hv]. destruct v; [discriminate|auto].
  - intros H. exists (l, false). split; auto. apply filter_In. auto.
Qed.
Lemma piv_set_true_open p l x : In x (open_piv p) -> x <> l -> In x (open_piv (piv_set_true p l)).
Proof.
  rewrite !open_piv_In. intros H Hn. unfold piv_set_true. apply in_map_iff. exists (x, false). split; auto.
  simpl. destruct (lit_eqb l x) eqn:El; [apply lit_eqb_eq in El; congruence|reflexivity].
Qed.
Lemma piv_set_true_keys p l : map fst (piv_set_true p l) = map fst p.
Proof.
  unfold piv_set_true. rewrite map_map. apply map_ext. intros [k v]. simpl. destruct (lit_eqb l k); reflexivity.
Qed.
Lemma piv_or_insert_open p l x : In x (open_piv p) -> In x (open_piv (piv_or_insert p l)).
Proof.
  unfold piv_or_insert. destruct (piv_get p l); auto. rewrite !open_piv_In, in_app_iff. auto.
Qed.
Lemma piv_or_insert_new p l : piv_get p l <> Some true -> In l (open_piv (piv_or_insert p l)).
Proof.
  unfold piv_or_insert. intros H. destruct (piv_get p l) as [[]|] eqn:Eg; try congruence.
  - apply open_piv_In, piv_get_In; auto.
  - apply open_piv_In. apply in_app_iff. simpl; auto.
Qed.
Lemma piv_or_insert_keys p l x : In x (map fst (piv_or_insert p l)) -> In x (map fst p) \/ x = l.
Proof.
  unfold piv_or_insert. destruct (piv_get p l); auto. rewrite map_app, in_app_iff. simpl. intuition.
Qed.
Lemma try_elim_some p l p' : try_elim p l = Some p' -> p' = piv_set_true p l /\ In l (map fst p).
Proof.
  unfold try_elim. destruct (piv_get p l) as [b|] eqn:Eg; [|discriminate]. intros H; injection H as <-.
  split; auto. apply piv_get_In in Eg. apply (in_map fst) in Eg. auto.
Qed.

Section Greedy.
  Context {I : interp} (E : env I).
  Notation hlit := (hlit E). Notation hlits := (hlits E).
  Variable concl : list (nat * term).

  (** one literal: either nothing is lost, or exactly one pivot [x] is eliminated against it *)
  Lemma greedy_lit_cases g t : lit_reuse concl g t = false ->
    let g' := greedy_lit concl g t in let l := remove_all_negations t in
    (g_elim g' = g_elim g /\ incl (glits g) (glits g') /\ In l (glits g') /\
     (forall x, In x (map fst (g_piv g')) -> In x (map fst (g_piv g)) \/ x = l))
    \/ (g_elim g = false /\ g_elim g' = true /\
        exists x, (x = (S (fst l), snd l) \/ l = (S (fst x), snd x)) /\ In x (map fst (g_piv g)) /\
          map fst (g_piv g') = map fst (g_piv g) /\
          (forall y, In y (glits g) -> y <> x -> In y (glits g'))).
  Proof.
    unfold lit_reuse, greedy_lit. destruct (remove_all_negations t) as [n inner] eqn:Er.
    set (l := (n, inner)). cbv zeta.
    destruct (memb lit_eqb l concl) eqn:Ec; cbn [andb negb].
    { intros _.
      assert (Hw : forall x, In x (glits g) \/ x = l -> In x (glits (mkG (set_insert lit_eqb l (g_work g)) (g_piv g) (g_elim g)))).
      { intros x Hx. unfold glits in *. cbn [g_work g_piv]. rewrite in_app_iff in *.
        rewrite (set_insert_In _ lit_eqb_eq). tauto. }
      destruct (memb lit_eqb l (g_work g)) eqn:Ew; cbn [negb andb].
      2:{ left. split; [reflexivity|]. split; [intros x Hx; apply Hw; auto|]. split; [apply Hw; auto|]. auto. }
      destruct (g_elim g) eqn:Ee.
      { left. split; [reflexivity|]. split; [intros x Hx; apply Hw; auto|]. split; [apply Hw; auto|]. auto. }
      destruct (match n with O => None | S m => try_elim (g_piv g) (m, inner) end) as [p|] eqn:E1.
      { destruct n as [|m]; [discriminate|]. apply try_elim_some in E1. destruct E1 as [-> Hk].
        right. split; auto. split; auto. exists (m, inner). split; [right; reflexivity|]. split; [auto|].
        split; [apply piv_set_true_keys|]. intros y Hy Hn. unfold glits in *. cbn [g_work g_piv].
        rewrite in_app_iff in *. destruct Hy; auto. right. apply piv_set_true_open; auto. }
      destruct (try_elim (g_piv g) (S n, inner)) as [p|] eqn:E2.
      { apply try_elim_some in E2. destruct E2 as [-> Hk].
        right. split; auto. split; auto. exists (S n, inner). split; [left; reflexivity|]. split; [auto|].
        split; [apply piv_set_true_keys|]. intros y Hy Hn. unfold glits in *. cbn [g_work g_piv].
        rewrite in_app_iff in *. destruct Hy; auto. right. apply piv_set_true_open; auto. }
      left. split; [reflexivity|]. split; [intros x Hx; apply Hw; auto|]. split; [apply Hw; auto|]. auto. }
    intros Hr.
    assert (Hi : piv_get (g_piv g) l <> Some true ->
      let g' := mkG (g_work g) (piv_or_insert (g_piv g) l) (g_elim g) in
      incl (glits g) (glits g') /\ In l (glits g') /\
      (forall x, In x (map fst (g_piv g')) -> In x (map fst (g_piv g)) \/ x = l)).
    { intros Hg. cbn. unfold glits. cbn. split; [|split].
      - intros x Hx. rewrite in_app_iff in *. destruct Hx; auto. right. apply piv_or_insert_open; auto.
      - apply in_app_iff. right. apply piv_or_insert_new; auto.
      - intros x. apply piv_or_insert_keys. }
    destruct (g_elim g) eqn:Ee.
    { left. cbn [g_elim]. split; auto. apply Hi. intros Hg. rewrite Hg in Hr. discriminate. }
    destruct (match n with O => None | S m => try_elim (g_piv g) (m, inner) end) as [p|] eqn:E1.
    { destruct n as [|m]; [discriminate|]. apply try_elim_some in E1. destruct E1 as [-> Hk].
      right. split; auto. split; auto. exists (m, inner). split; [right; reflexivity|]. split; [auto|].
      split; [apply piv_set_true_keys|]. intros y Hy Hn. unfold glits in *. cbn [g_work g_piv].
      rewrite in_app_iff in *. destruct Hy; auto. right. apply piv_set_true_open; auto. }
    destruct (try_elim (g_piv g) (S n, inner)) as [p|] eqn:E2.
    { apply try_elim_some in E2. destruct E2 as [-> Hk].
      right. split; auto. split; auto. exists (S n, inner). split; [left; reflexivity|]. split; [auto|].
      split; [apply piv_set_true_keys|]. intros y Hy Hn. unfold glits in *. cbn [g_work g_piv].
      rewrite in_app_iff in *. destruct Hy; auto. right. apply piv_set_true_open; auto. }
    left. cbn [g_elim]. split; auto. apply Hi. intros Hg. rewrite Hg in Hr. discriminate.
  Qed.

  (** processing (a suffix of) a clause *)
  Lemma greedy_lits_no_elim ts : forall g, clause_reuse concl g ts = false -> g_elim g = true ->
    let g' := fold_left (greedy_lit concl) ts g in
    incl (glits g) (glits g') /\ incl (map remove_all_negations ts) (glits g').
  Proof.
    induction ts as [|t r IH]; intros g Hr He; cbn [fold_left map].
    - split; [apply incl_refl|intros x []].
    - cbn [clause_reuse] in Hr. apply orb_false_iff in Hr. destruct Hr as [Hr1 Hr2].
      destruct (greedy_lit_cases g t Hr1) as [[H1 [H2 [H3 H4]]]|[H1 _]]; [|congruence].
      destruct (IH _ Hr2 ltac:(congruence)) as [H5 H6]. split.
      + eapply incl_tran; eauto.
      + intros x [<-|Hx]; auto.
  Qed.
  Lemma greedy_lits_spec ts : forall g, clause_reuse concl g ts = false -> g_elim g = false ->
    let g' := fold_left (greedy_lit concl) ts g in
    (incl (glits g) (glits g') /\ incl (map remove_all_negations ts) (glits g'))
    \/ (exists x l, In l (map remove_all_negations ts) /\ (x = (S (fst l), snd l) \/ l = (S (fst x), snd x)) /\
         (In x (map fst (g_piv g)) \/ In x (map remove_all_negations ts)) /\
         (forall y, In y (glits g) -> y <> x -> In y (glits g')) /\
         (forall y, In y (map remove_all_negations ts) -> y <> l -> y <> x -> In y (glits g'))).
  Proof.
    induction ts as [|t r IH]; intros g Hr He; cbn [fold_left map].
    - left. split; [apply incl_refl|intros x []].
    - cbn [clause_reuse] in Hr. apply orb_false_iff in Hr. destruct Hr as [Hr1 Hr2].
      destruct (greedy_lit_cases g t Hr1) as [[H1 [H2 [H3 H4]]]|[H1 [H2 [x [Hx [Hk [Hkeys Hl]]]]]]].
      + destruct (IH _ Hr2 ltac:(congruence)) as [[H5 H6]|[x [l [Hl [Hc [Hk [Ha Hb]]]]]]].
        * left. split; [eapply incl_tran; eauto|]. intros x [<-|Hx]; auto.
        * right. exists x, l. split; [right; auto|]. split; auto. split.
          { destruct Hk as [Hk|Hk]; [|right; right; auto]. apply H4 in Hk. destruct Hk as [Hk| ->]; [left; auto|right; left; auto]. }
          split; [intros; auto|]. intros y [<-|Hy] Hn1 Hn2; auto.
      + destruct (greedy_lits_no_elim r _ Hr2 H2) as [H5 H6].
        right. exists x, (remove_all_negations t). split; [left; auto|]. split; auto. split; [auto|].
        split; [intros; auto|]. intros y [<-|Hy] Hn1 Hn2; [congruence|auto].
  Qed.

  Lemma greedy_keys ts : forall g x, In x (map fst (g_piv (fold_left (greedy_lit concl) ts g))) ->
    In x (map fst (g_piv g)) \/ In x (map remove_all_negations ts).
  Proof.
    induction ts as [|t r IH]; intros g x H; cbn [fold_left map] in *; auto.
    apply IH in H. destruct H as [H|H]; [|right; right; auto].
    assert (Hk : In x (map fst (g_piv g)) \/ x = remove_all_negations t).
    { revert H. unfold greedy_lit. destruct (remove_all_negations t) as [n inner].
      destruct (memb lit_eqb (n, inner) concl && negb _); cbn [g_piv]; auto.
      match goal with |- context [match ?e with Some p => mkG _ p true | None => _ end] => destruct e as [p|] eqn:Ee end.
      - cbn [g_piv]. destruct (g_elim g); [discriminate|].
        destruct (match n with O => None | S m => try_elim (g_piv g) (m, inner) end) as [q|] eqn:E1.
        + injection Ee as <-. destruct n; [discriminate|]. apply try_elim_some in E1. destruct E1 as [-> _].
          rewrite piv_set_true_keys. auto.
        + apply try_elim_some in Ee. destruct Ee as [-> _]. rewrite piv_set_true_keys. auto.
      - destruct (memb lit_eqb (n, inner) concl); cbn [g_piv]; auto. apply piv_or_insert_keys. }
    destruct Hk as [Hk| ->]; auto. right; left; auto.
  Qed.

  Lemma no_compl_spec p l : no_compl p = true -> In l (map remove_all_negations p) ->
    ~ In (S (fst l), snd l) (map remove_all_negations p).
  Proof.
    unfold no_compl. intros H Hl Hn. rewrite forallb_forall in H. specialize (H l Hl).
    apply negb_true_iff in H. assert (memb lit_eqb (S (fst l), snd l) (map remove_all_negations p) = true).
    { apply (memb_In _ lit_eqb_eq). auto. } congruence.
  Qed.
  Lemma compl_sem x l : (x = (S (fst l), snd l) \/ l = (S (fst x), snd x)) -> hlit x = negb (hlit l).
  Proof.
    destruct x as [m u], l as [n t]. cbn [fst snd]. intros [H|H]; injection H as -> ->; rewrite hlit_S; [|rewrite negb_involutive]; reflexivity.
  Qed.

  Lemma greedy_clause_inv g p :
    clause_reuse concl (mkG (g_work g) (g_piv g) false) p = false -> no_compl p = true ->
    clause_holds E p -> (glits g = [] /\ g_piv g = [] \/ hlits (glits g)) ->
    hlits (glits (greedy_clause concl g p)).
  Proof.
    intros Hr Hn Hp Hg. apply holds_lits in Hp. destruct Hp as [d [Hd Hdh]].
    destruct (greedy_lits_spec p _ Hr eq_refl) as [[H1 H2]|[x [l [Hl [Hc [Hk [Ha Hb]]]]]]].
    - exists d. split; auto.
    - assert (Hxp : ~ In x (map remove_all_negations p)).
      { intros Hx. destruct Hc as [Hc|Hc]; [rewrite Hc in Hx; exact (no_compl_spec p l Hn Hl Hx)|rewrite Hc in Hl; exact (no_compl_spec p x Hn Hx Hl)]. }
      destruct Hk as [Hk|Hk]; [|contradiction].
      destruct Hg as [[_ Hg]|[y [Hy Hyh]]]; [cbn [g_piv] in Hk; rewrite Hg in Hk; destruct Hk|].
      pose proof (compl_sem x l Hc) as Hs.
      destruct (hlit x) eqn:Ex.
      + exists d. split; auto. apply Hb; auto; intros ->; [|auto]. rewrite Hdh in Hs. discriminate.
      + exists y. split; auto. apply Ha; auto. intros ->. congruence.
  Qed.
  Lemma greedy_run_inv ps : forall g, run_reuse concl g ps = false -> forallb no_compl ps = true ->
    (forall p, In p ps -> clause_holds E p) -> (glits g = [] /\ g_piv g = [] /\ ps <> [] \/ hlits (glits g)) ->
    hlits (glits (fold_left (greedy_clause concl) ps g)).
  Proof.
    induction ps as [|p r IH]; intros g Hr Hn HP Hg; cbn [fold_left].
    - destruct Hg as [[_ [_ Hg]]|Hg]; [congruence|auto].
    - cbn [run_reuse forallb] in *. apply orb_false_iff in Hr. destruct Hr as [Hr1 Hr2].
      apply andb_true_iff in Hn. destruct Hn as [Hn1 Hn2].
      apply IH; auto. { intros q Hq. apply HP. right; auto. }
      right. apply greedy_clause_inv; auto. { apply HP. left; auto. }
      tauto.
  Qed.
  Lemma greedy_lit_work g t x : In x (g_work (greedy_lit concl g t)) -> In x (g_work g) \/ In x concl.
  Proof.
    unfold greedy_lit. destruct (remove_all_negations t) as [n inner].
    destruct (memb lit_eqb (n, inner) concl) eqn:Ec; cbn [andb].
    - assert (Hc : In (n, inner) concl) by (apply (memb_In _ lit_eqb_eq); auto).
      assert (Hx : In x (set_insert lit_eqb (n, inner) (g_work g)) -> In x (g_work g) \/ In x concl).
      { rewrite (set_insert_In _ lit_eqb_eq). intros [->|]; auto. }
      destruct (negb _); cbn [g_work]; auto.
      match goal with |- context [match ?e with Some p => mkG _ p true | None => _ end] => destruct e end; cbn [g_work]; auto.
    - match goal with |- context [match ?e with Some p => mkG _ p true | None => _ end] => destruct e end; cbn [g_work]; auto.
  Qed.
  Lemma greedy_work ps : forall g x, In x (g_work (fold_left (greedy_clause concl) ps g)) -> In x (g_work g) \/ In x concl.
  Proof.
    induction ps as [|p r IH]; intros g x H; cbn [fold_left] in *; auto.
    apply IH in H. destruct H as [H|H]; auto. unfold greedy_clause in H.
    assert (Hp : forall ts g0, In x (g_work (fold_left (greedy_lit concl) ts g0)) -> In x (g_work g0) \/ In x concl).
    { induction ts as [|t ts IHt]; intros g0 H0; cbn [fold_left] in *; auto.
      apply IHt in H0. destruct H0 as [H0|H0]; auto. apply greedy_lit_work in H0. auto. }
    apply Hp in H. auto.
  Qed.
End Greedy.

Lemma mod2_even i : i mod 2 = if Nat.even i then 0 else 1.
Proof.
  destruct (Nat.even i) eqn:Ei.
  - apply Nat.even_spec in Ei. destruct Ei as [k ->]. rewrite Nat.mul_comm, Nat.mod_mul; lia.
  - assert (Ho : Nat.odd i = true) by (rewrite <- Nat.negb_even, Ei; reflexivity).
    apply Nat.odd_spec in Ho. destruct Ho as [k ->].
    rewrite Nat.add_comm, Nat.mul_comm, Nat.mod_add by lia. reflexivity.
Qed.

Lemma greedy_resolution_sound c ps :
  greedy_resolution c ps = ROk tt -> ps <> [] ->
  forallb no_compl ps = true -> greedy_reuse c ps = false -> entails ps c.
Proof.
  unfold greedy_resolution, greedy_reuse. set (concl := set_of lit_eqb (map remove_all_negations c)).
  intros H Hne Hn Hr I E HE HP. apply holds_lits.
  assert (Hcl : forall x, In x concl <-> In x (map remove_all_negations c)).
  { intros. apply set_of_In. apply lit_eqb_eq. }
  assert (Hc : hlits E concl -> hlits E (map remove_all_negations c)).
  { apply hlits_incl. intros x. apply Hcl. }
  pose proof (greedy_run_inv E concl ps (mkG [] [] false) Hr Hn HP) as [y [Hy Hyh]]; [left; auto|].
  pose proof (greedy_work concl ps (mkG [] [] false)) as Hw.
  change (fold_left (greedy_clause concl) ps {| g_work := []; g_piv := []; g_elim := false |})
    with (greedy_run concl ps) in *.
  apply in_app_or in Hy. destruct Hy as [Hy|Hy].
  { apply Hc. exists y. split; auto. destruct (Hw y Hy) as [[]|]; auto. }
  unfold greedy_final in H. unfold open_piv in Hy.
  destruct (filter (fun e => negb (snd e)) (g_piv (greedy_run concl ps))) as [|[[i pivot] b] [|e2 r]]; [destruct Hy| |discriminate].
  destruct Hy as [<-|[]]. cbn [fst] in Hyh.
  destruct ((match concl with [] => true | _ => false end) && Nat.eqb i 0 && is_false pivot) eqn:Ef.
  - apply andb_true_iff in Ef. destruct Ef as [Ef Ef3]. apply andb_true_iff in Ef. destruct Ef as [_ Ef2].
    apply Nat.eqb_eq in Ef2. apply is_false_eq in Ef3. subst. discriminate.
  - destruct concl as [|[j ct] [|e2 r]] eqn:Ecl; try discriminate. rinv. apply andb_true_iff in H. destruct H as [H1 H2].
    apply term_eqb_eq in H1. subst ct. apply Nat.eqb_eq in H2. rewrite !mod2_even in H2.
    apply Hc. exists (j, pivot). split; [left; auto|].
    unfold hlit in *. cbn [fst snd] in *. destruct (Nat.even i), (Nat.even j); auto; discriminate.
Qed.

(** The whole rule is sound on steps where the greedy pass is not used with re-occurring pivots. *)
Lemma r_resolution_sound_partial c ps args :
  r_resolution c ps args = ROk tt ->
  (args = [] -> forallb no_compl ps = true /\ greedy_reuse c ps = false) -> entails ps c.
Proof.
  intros H Hg. destruct args as [|a0 args].
  - destruct (Hg eq_refl) as [Hn Hr]. unfold r_resolution in H.
    assert (Hgen : obind (len_ge ps 2) (fun _ => match greedy_resolution c ps with ROk _ => ROk tt | _ => rassert (rup_resolution c ps) end) = ROk tt
                   -> entails ps c).
    { clear H. intros H. rinv. match goal with H : len_ge _ _ = _ |- _ => apply len_ge_ok in H end.
      assert (ps <> []) by (destruct ps; [simpl in *; lia|discriminate]).
      destruct (greedy_resolution c ps) as [[]| |] eqn:Egr.
      - apply greedy_resolution_sound; auto.
      - rinv. apply rup_resolution_sound; auto.
      - rinv. apply rup_resolution_sound; auto. }
    destruct c as [|l c]; [|auto].
    destruct ps as [|[|t [|t2 p]] [|p1 ps]]; auto.
    destruct (term_eqb t (tNot tTrue)) eqn:Et; [|discriminate]. apply term_eqb_eq in Et. subst t.
    intros I E HE HP. pose proof (prem1 _ _ _ HP) as HT. discriminate.
  - eapply r_resolution_with_args_entails; eauto.
Qed.

Lemma r_resolution_with_args_sound : rule_sound r_resolution_with_args.
Proof. intros c ps args H _ _. eapply r_resolution_with_args_entails; eauto. Qed.
Lemma r_strict_resolution_sound : rule_sound r_strict_resolution.
Proof. intros c ps args H _ _. eapply r_strict_resolution_entails; eauto. Qed.

(** ** The greedy algorithm accepts an invalid inference *)
Definition pvar := TVar "p" SBool.
Definition rp_concl : clause := [].
Definition rp_prems : list clause := [[pvar]; [tNot pvar; pvar]].
Lemma env_with {I} (x : string) s v : idom I s v = true -> exists E : env I, env_ok E /\ E x s = v.
Proof.
  intros Hv. destruct (env_exists (I := I)) as [E HE]. exists (upd E x s v). split.
  - apply env_ok_upd; auto.
  - apply upd_same.
Qed.
Lemma resolution_refuted_aux :
  r_resolution rp_concl rp_prems [] = ROk tt /\
  forall I : interp, exists E : env I, env_ok E /\
     (forall p, In p rp_prems -> clause_holds E p) /\ ~ clause_holds E rp_concl.
Proof.
  split; [reflexivity|]. intros I. destruct (env_with (I := I) "p" SBool (VB true) eq_refl) as [E [HE Hp]].
  exists E. split; [exact HE|]. split.
  - intros p [<-|[<-|[]]]; apply clause_holds_b; cbn [existsb]; unfold holds; cbn; rewrite Hp; reflexivity.
  - apply clause_holds_nil.
Qed.
Lemma resolution_refuted :
  exists (c : clause) (ps : list clause),
    r_resolution c ps [] = ROk tt /\
    clause_wt c = true /\ forallb clause_wt ps = true /\
    forall I : interp, exists E : env I, env_ok E /\
      (forall p, In p ps -> clause_holds E p) /\ ~ clause_holds E c.
Proof. exists rp_concl, rp_prems. destruct resolution_refuted_aux. repeat split; auto. Qed.
