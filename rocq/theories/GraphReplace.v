(** Replacing a node of an accepted graph by another one with the same clause (elaborator/mod.rs, [mutate]). *)
From Coq Require Import List String ZArith Bool Arith Lia.
From Verif Require Import Base Term Rules Checker CheckerSound Nodes ElabIds ElabSolver ElabSound ElabSolverSound GraphAccept GraphCheck GraphTree GraphWf GraphDone.
Import ListNotations.
Local Open Scope string_scope.
Local Open Scope nat_scope.
Local Open Scope list_scope.

Section Sub.
  Variables (table : bool -> string -> option crule) (cfg : config) (prems : list term) (home : nat -> list nat) (an : nat -> list anchor).
  Variables (G G1 : pnode -> Prop) (R R1 : string -> Prop).
  Hypothesis W : wfg table cfg prems G home an R.
  Hypothesis Hsub : forall x, G1 x -> G x.
  Hypothesis Hall : forall n x, G1 n -> In x (allnodes n) -> G1 x.
  Hypothesis HR : forall a id d cl r ps args ds prev, G1 (PStep a id d cl r ps args ds prev) -> R1 r.
  (** a part of the graph with everything below *)
  Lemma wfg_sub : wfg table cfg prems G1 home an R1.
  Proof.
    split.
    - exact Hall.
    - intros x y Hx Hy. apply (w_addr _ _ _ _ _ _ _ W); auto.
    - intros n Hn. apply (w_depth _ _ _ _ _ _ _ W); auto.
    - intros n Hn. apply (w_fresh _ _ _ _ _ _ _ W); auto.
    - intros a id d t Hn. apply (w_assume _ _ _ _ _ _ _ W a id d t); auto.
    - intros a id d cl r ps args ds Hn. destruct (w_step _ _ _ _ _ _ _ W _ _ _ _ _ _ _ _ (Hsub _ Hn)) as (A & B & _ & C). split; [exact A|]. split; [exact B|]. split; [eapply HR; exact Hn|exact C].
    - intros a l args out extra Hn. destruct (w_sub _ _ _ _ _ _ _ W _ _ _ _ _ (Hsub _ Hn)) as (A1 & A2 & A3 & al & id & d & cl & r & ps & sargs & ds & p & B1 & B2 & B3 & B4 & B5 & B6 & B7 & (_ & B8) & B9 & B10).
      split; [exact A1|]. split; [exact A2|]. split; [exact A3|]. exists al, id, d, cl, r, ps, sargs, ds, p. repeat (split; [assumption|]). split; [split; [|exact B8]|split; [|exact B10]].
      + eapply HR. rewrite <- B1. apply (Hall _ _ Hn). apply kid_all. left. reflexivity.
      + intros x Hx. apply B9. auto.
  Qed.
End Sub.

Section Union.
  Variables (table : bool -> string -> option crule) (cfg : config) (prems : list term) (home : nat -> list nat) (an : nat -> list anchor).
  Variables (G N : pnode -> Prop) (R : string -> Prop).
  Hypothesis W1 : wfg table cfg prems G home an R.
  Hypothesis W2 : wfg table cfg prems N home an R.
  Hypothesis Hdis : forall x y, G x -> N y -> paddr x <> paddr y.
  Hypothesis Hd1 : forall a l args out extra x, G (PSub a l args out extra) -> N x -> is_passume x = true -> home (paddr x) <> home a ++ [a].
  Hypothesis Hd2 : forall a l args out extra x, N (PSub a l args out extra) -> G x -> is_passume x = true -> home (paddr x) <> home a ++ [a].
  Lemma wfg_union : wfg table cfg prems (fun x => N x \/ G x) home an R.
  Proof.
    split.
    - intros n x [Hn|Hn] Hx; [left; apply (w_all _ _ _ _ _ _ _ W2 n); auto|right; apply (w_all _ _ _ _ _ _ _ W1 n); auto].
    - intros x y [Hx|Hx] [Hy|Hy] E; [apply (w_addr _ _ _ _ _ _ _ W2); auto|destruct (Hdis y x); auto|destruct (Hdis x y); auto|apply (w_addr _ _ _ _ _ _ _ W1); auto].
    - intros n [Hn|Hn]; [apply (w_depth _ _ _ _ _ _ _ W2); auto|apply (w_depth _ _ _ _ _ _ _ W1); auto].
    - intros n [Hn|Hn]; [apply (w_fresh _ _ _ _ _ _ _ W2); auto|apply (w_fresh _ _ _ _ _ _ _ W1); auto].
    - intros a id d t [Hn|Hn]; [apply (w_assume _ _ _ _ _ _ _ W2 a id d t); auto|apply (w_assume _ _ _ _ _ _ _ W1 a id d t); auto].
    - intros a id d cl r ps args ds [Hn|Hn]; [apply (w_step _ _ _ _ _ _ _ W2 _ _ _ _ _ _ _ _ Hn)|apply (w_step _ _ _ _ _ _ _ W1 _ _ _ _ _ _ _ _ Hn)].
    - intros a l args out extra [Hn|Hn].
      + destruct (w_sub _ _ _ _ _ _ _ W2 _ _ _ _ _ Hn) as (A1 & A2 & A3 & al & id & d & cl & r & ps & sargs & ds & p & B1 & B2 & B3 & B4 & B5 & B6 & B7 & B8 & B9 & B10).
        split; [exact A1|]. split; [exact A2|]. split; [exact A3|]. exists al, id, d, cl, r, ps, sargs, ds, p. repeat (split; [assumption|]). split; [|exact B10].
        intros x [Hx|Hx] Hp Hh; [auto|]. destruct (Hd2 _ _ _ _ _ _ Hn Hx Hp Hh).
      + destruct (w_sub _ _ _ _ _ _ _ W1 _ _ _ _ _ Hn) as (A1 & A2 & A3 & al & id & d & cl & r & ps & sargs & ds & p & B1 & B2 & B3 & B4 & B5 & B6 & B7 & B8 & B9 & B10).
        split; [exact A1|]. split; [exact A2|]. split; [exact A3|]. exists al, id, d, cl, r, ps, sargs, ds, p. repeat (split; [assumption|]). split; [|exact B10].
        intros x [Hx|Hx] Hp Hh; [|auto]. destruct (Hd1 _ _ _ _ _ _ Hn Hx Hp Hh).
  Qed.
End Union.

Section Replace.
  Variables (table : bool -> string -> option crule) (cfg : config) (prems : list term) (home : nat -> list nat) (an : nat -> list anchor).
  Variables (G N : pnode -> Prop) (R0 R : string -> Prop) (old new : pnode).
  Notation hm n := (home (paddr n)).
  Hypothesis W : wfg table cfg prems G home an R0.
  (** the new nodes, with the nodes of the graph that do not depend on the replaced one *)
  Definition ready (x : pnode) : Prop := N x \/ (G x /\ ~ In old (allnodes x)).
  Hypothesis WU : wfg table cfg prems ready home an R.
  Hypothesis Hold : G old /\ plain_node old = true /\ is_passume old = false.
  Hypothesis Hnew : N new /\ plain_node new = true /\ is_passume new = false /\ pclause new = pclause old /\ hm new = hm old.
  Hypothesis Hfresh : forall x y, N x -> G y -> paddr x <> paddr y.
  Hypothesis Hbelow : forall y, In y (allnodes new) -> G y -> In y (allnodes old).
  Hypothesis Hdis : forall a l args out extra x, G (PSub a l args out extra) -> N x -> is_passume x = true -> hm x <> home a ++ [a].
  Hypothesis HR : forall a id d cl r ps args ds prev, G (PStep a id d cl r ps args ds prev) -> a <> paddr old -> R r.
  Definition rep : pnode -> pnode := replace_node (paddr old) new.
  Definition replaced (y : pnode) : Prop := N y \/ exists x, G x /\ x <> old /\ y = rep x.

  Lemma rep_old : rep old = new.
  Proof. unfold rep. destruct old; cbn [replace_node paddr]; rewrite Nat.eqb_refl; reflexivity. Qed.
  Lemma rep_neq x : G x -> x <> old -> Nat.eqb (paddr x) (paddr old) = false.
  Proof. intros Hx Hn. apply Nat.eqb_neq. intros E. apply Hn. apply (w_addr _ _ _ _ _ _ _ W); auto. apply Hold. Qed.
  Lemma rep_assume a id d t : G (PAssume a id d t) -> rep (PAssume a id d t) = PAssume a id d t.
  Proof. intros Hx. unfold rep. cbn [replace_node]. destruct (Nat.eqb _ _) eqn:E; [|reflexivity]. rewrite rep_neq in E; [discriminate|exact Hx|]. intros E'. destruct Hold as (_ & _ & H). rewrite <- E' in H. discriminate. Qed.
  Lemma rep_step a id d cl r ps args ds prev : G (PStep a id d cl r ps args ds prev) -> PStep a id d cl r ps args ds prev <> old ->
    rep (PStep a id d cl r ps args ds prev) = PStep a id d cl r (map rep ps) args (map rep ds) (match prev with Some p => Some (rep p) | None => None end).
  Proof. intros Hx Hn. unfold rep at 1. cbn [replace_node]. rewrite (rep_neq _ Hx Hn). reflexivity. Qed.
  Lemma rep_sub a l args out extra : G (PSub a l args out extra) -> PSub a l args out extra <> old -> rep (PSub a l args out extra) = PSub a (rep l) args (map rep out) (map rep extra).
  Proof. intros Hx Hn. unfold rep at 1. cbn [replace_node]. rewrite (rep_neq _ Hx Hn). reflexivity. Qed.
  Lemma kid_in n k : G n -> In k (kids n) -> G k.
  Proof. intros Hn Hk. apply (w_all _ _ _ _ _ _ _ W n); auto. apply kid_all. exact Hk. Qed.
  Lemma eq_dec_old x : G x -> x = old \/ x <> old.
  Proof. intros Hx. destruct (Nat.eq_dec (paddr x) (paddr old)) as [E|E]; [left; apply (w_addr _ _ _ _ _ _ _ W); auto; apply Hold|right; congruence]. Qed.
  Lemma rep_kids x : G x -> x <> old -> kids (rep x) = map rep (kids x) /\ paddr (rep x) = paddr x.
  Proof.
    intros Hx Hn. destruct x as [a id d t|a id d cl r ps args ds prev|a l args out extra].
    - rewrite rep_assume by exact Hx. split; reflexivity.
    - rewrite rep_step by assumption. cbn [kids paddr]. rewrite !map_app. destruct prev; split; reflexivity.
    - rewrite rep_sub by assumption. cbn [kids paddr map]. rewrite !map_app. split; reflexivity.
  Qed.
  Lemma rep_hm x : G x -> hm (rep x) = hm x.
  Proof. intros Hx. destruct (eq_dec_old x Hx) as [->|Hn]; [rewrite rep_old; apply Hnew|]. rewrite (proj2 (rep_kids x Hx Hn)). reflexivity. Qed.
  Lemma rep_plain x : G x -> plain_node (rep x) = plain_node x.
  Proof.
    intros Hx. destruct (eq_dec_old x Hx) as [->|Hn]; [rewrite rep_old; destruct Hold as (_ & -> & _), Hnew as (_ & -> & _); reflexivity|].
    destruct x as [a id d t|a id d cl r ps args ds prev|a l args out extra]; [rewrite rep_assume by exact Hx; reflexivity|rewrite rep_step by assumption; destruct prev; reflexivity|rewrite rep_sub by assumption; reflexivity].
  Qed.
  Lemma last_not_old a l args out extra : G (PSub a l args out extra) -> l <> old.
  Proof. intros Hx E. destruct (w_sub _ _ _ _ _ _ _ W _ _ _ _ _ Hx) as (_ & _ & _ & al & id & d & cl & r & ps & sargs & ds & p & El & _). destruct Hold as (_ & H & _). rewrite <- E, El in H. discriminate. Qed.
  Lemma rep_clause x : G x -> pclause (rep x) = pclause x.
  Proof.
    intros Hx. destruct (eq_dec_old x Hx) as [->|Hn]; [rewrite rep_old; apply Hnew|].
    destruct x as [a id d t|a id d cl r ps args ds prev|a l args out extra]; [rewrite rep_assume by exact Hx; reflexivity|rewrite rep_step by assumption; reflexivity|].
    rewrite rep_sub by assumption. cbn [pclause]. pose proof (last_not_old _ _ _ _ _ Hx) as Hl. assert (Gl : G l) by (apply (kid_in _ _ Hx); left; reflexivity).
    destruct (w_sub _ _ _ _ _ _ _ W _ _ _ _ _ Hx) as (_ & _ & _ & al & id & d & cl & r & ps & sargs & ds & p & El & _). rewrite El in *. rewrite rep_step by assumption. reflexivity.
  Qed.
  Lemma rep_clauses l : (forall x, In x l -> G x) -> map pclause (map rep l) = map pclause l.
  Proof. intros H. rewrite map_map. apply map_ext_in. intros x Hx. apply rep_clause. auto. Qed.
  Lemma rep_depth x : G x -> pdepth (rep x) = pdepth x.
  Proof.
    intros Hx. destruct (eq_dec_old x Hx) as [->|Hn].
    - rewrite rep_old. rewrite (w_depth _ _ _ _ _ _ _ WU new) by (left; apply Hnew). rewrite (w_depth _ _ _ _ _ _ _ W old Hx). destruct Hnew as (_ & _ & _ & _ & ->). reflexivity.
    - destruct x as [a id d t|a id d cl r ps args ds prev|a l args out extra]; [rewrite rep_assume by exact Hx; reflexivity|rewrite rep_step by assumption; reflexivity|].
      rewrite rep_sub by assumption. cbn [pdepth]. pose proof (last_not_old _ _ _ _ _ Hx) as Hl. assert (Gl : G l) by (apply (kid_in _ _ Hx); left; reflexivity).
      destruct (w_sub _ _ _ _ _ _ _ W _ _ _ _ _ Hx) as (_ & _ & _ & al & id & d & cl & r & ps & sargs & ds & p & El & _). rewrite El in *. rewrite rep_step by assumption. reflexivity.
  Qed.
  Lemma rep_id_aux k : forall x, nsize x <= k -> G x -> ~ In old (allnodes x) -> rep x = x.
  Proof.
    induction k as [|k IH]; intros x Hk Hx Ho; [destruct x; cbn in Hk; lia|].
    assert (Hn : x <> old) by (intros ->; apply Ho; apply all_self).
    assert (Hq : forall q, In q (kids x) -> rep q = q).
    { intros q Hq. apply IH; [pose proof (kid_size _ _ Hq); lia|eapply kid_in; eauto|]. intros H. apply Ho. eapply kid_trans; eauto. }
    assert (Hm : forall l, incl l (kids x) -> map rep l = l). { intros l Hl. induction l as [|y l IHl]; [reflexivity|]. cbn [map]. rewrite Hq by (apply Hl; left; reflexivity). rewrite IHl; [reflexivity|]. intros z Hz. apply Hl. right. exact Hz. }
    destruct x as [a id d t|a id d cl r ps args ds prev|a l args out extra]; [apply rep_assume; exact Hx| |].
    - rewrite rep_step by assumption. cbn [kids] in Hm, Hq. rewrite (Hm ps), (Hm ds) by (intros z Hz; rewrite !in_app_iff; auto). destruct prev as [p|]; [|reflexivity]. rewrite Hq by (rewrite !in_app_iff; cbn; auto). reflexivity.
    - rewrite rep_sub by assumption. cbn [kids] in Hm, Hq. rewrite Hq by (left; reflexivity). rewrite (Hm out), (Hm extra) by (intros z Hz; right; rewrite !in_app_iff; auto). reflexivity.
  Qed.
  Lemma rep_id x : G x -> ~ In old (allnodes x) -> rep x = x. Proof. apply (rep_id_aux (nsize x)). lia. Qed.
  Lemma acyc x : G x -> In old (allnodes x) -> In x (allnodes old) -> x = old.
  Proof.
    intros Hx H1 H2. destruct (eq_dec_old x Hx) as [E|Hn]; [exact E|]. exfalso. apply kids_all in H1. destruct H1 as [E|(k & Hk & H1)]; [apply Hn; auto|].
    pose proof (kid_size _ _ Hk). pose proof (all_le _ _ H1). pose proof (all_le _ _ H2). lia.
  Qed.
  Lemma all_rep_aux k : forall x, nsize x <= k -> G x -> forall y, In y (allnodes (rep x)) -> (N y /\ In old (allnodes x)) \/ exists z, In z (allnodes x) /\ z <> old /\ y = rep z.
  Proof.
    induction k as [|k IH]; intros x Hk Hx y Hy; [destruct x; cbn in Hk; lia|]. destruct (eq_dec_old x Hx) as [->|Hn].
    - rewrite rep_old in Hy. assert (Uy : ready y) by (apply (w_all _ _ _ _ _ _ _ WU new); [left; apply Hnew|exact Hy]). destruct Uy as [Ny|[Gy Ho]]; [left; split; [exact Ny|apply all_self]|].
      right. exists y. split; [apply Hbelow; assumption|]. split; [intros ->; apply Ho; apply all_self|]. symmetry. apply rep_id; assumption.
    - destruct (rep_kids x Hx Hn) as [Ek _]. apply kids_all in Hy. destruct Hy as [->|(q & Hq & Hy)]; [right; exists x; split; [apply all_self|auto]|].
      rewrite Ek in Hq. apply in_map_iff in Hq. destruct Hq as (q0 & <- & Hq). destruct (IH q0) with (y := y) as [[A B]|(z & A & B & C)]; [pose proof (kid_size _ _ Hq); lia|eapply kid_in; eauto|exact Hy| |].
      + left. split; [exact A|eapply kid_trans; eauto].
      + right. exists z. split; [eapply kid_trans; eauto|auto].
  Qed.
  Lemma all_rep x y : G x -> In y (allnodes (rep x)) -> (N y /\ In old (allnodes x)) \/ exists z, In z (allnodes x) /\ z <> old /\ y = rep z.
  Proof. intros Hx. apply (all_rep_aux (nsize x)); auto. Qed.
  Lemma rep_in x : G x -> replaced (rep x).
  Proof. intros Hx. destruct (eq_dec_old x Hx) as [->|Hn]; [left; rewrite rep_old; apply Hnew|right; eauto]. Qed.
  Lemma ready_in x : ready x -> replaced x.
  Proof. intros [Hx|[Hx Ho]]; [left; exact Hx|]. right. exists x. split; [exact Hx|]. split; [intros ->; apply Ho; apply all_self|]. symmetry. apply rep_id; assumption. Qed.
  Lemma rep_not_in x l : G x -> (forall z, In z l -> G z) -> ~ In (paddr x) (map paddr (flat_map allnodes l)) -> ~ In (paddr (rep x)) (map paddr (flat_map allnodes (map rep l))).
  Proof.
    intros Hx Hl Hn H. apply in_map_iff in H. destruct H as (y & Ey & Hy). apply in_flat_map in Hy. destruct Hy as (z' & Hz & Hy). apply in_map_iff in Hz. destruct Hz as (z & <- & Hz).
    assert (Hin : forall w, In w (allnodes z) -> paddr w = paddr x -> False) by (intros w Hw E; apply Hn; rewrite <- E; apply in_map; apply in_flat_map; eauto).
    assert (Gall : forall w, In w (allnodes z) -> G w) by (intros w Hw; apply (w_all _ _ _ _ _ _ _ W z); auto).
    destruct (all_rep z y (Hl z Hz) Hy) as [[Ny Ho]|(w & Hw & Hwn & ->)].
    - destruct (eq_dec_old x Hx) as [->|Hxn]; [exact (Hin old Ho eq_refl)|]. rewrite (proj2 (rep_kids x Hx Hxn)) in Ey. exact (Hfresh y x Ny Hx Ey).
    - rewrite (proj2 (rep_kids w (Gall w Hw) Hwn)) in Ey. destruct (eq_dec_old x Hx) as [->|Hxn].
      + rewrite rep_old in Ey. apply (Hfresh new w); [apply Hnew|apply Gall; exact Hw|auto].
      + rewrite (proj2 (rep_kids x Hx Hxn)) in Ey. exact (Hin w Hw Ey).
  Qed.
  Lemma disch_id ds : (forall x, In x ds -> G x /\ is_passume x = true) -> map rep ds = ds.
  Proof. intros H. rewrite <- map_id. apply map_ext_in. intros x Hx. destruct (H x Hx) as [A B]. destruct x; try discriminate. apply rep_assume. exact A. Qed.
  Theorem wfg_replace : wfg table cfg prems replaced home an R.
  Proof.
    split.
    - intros n x Hn Hx. destruct Hn as [Hn|(z & Gz & Hz & ->)].
      + apply ready_in. apply (w_all _ _ _ _ _ _ _ WU n); [left; exact Hn|exact Hx].
      + destruct (all_rep z x Gz Hx) as [[A _]|(w & A & B & ->)]; [left; exact A|]. apply rep_in. apply (w_all _ _ _ _ _ _ _ W z); auto.
    - intros x y [Hx|(z & Gz & Hz & ->)] [Hy|(w & Gw & Hw & ->)] E.
      + apply (w_addr _ _ _ _ _ _ _ WU); [left|left|]; assumption.
      + rewrite (proj2 (rep_kids w Gw Hw)) in E. destruct (Hfresh x w Hx Gw E).
      + rewrite (proj2 (rep_kids z Gz Hz)) in E. destruct (Hfresh y z Hy Gz (eq_sym E)).
      + rewrite (proj2 (rep_kids w Gw Hw)), (proj2 (rep_kids z Gz Hz)) in E. f_equal. apply (w_addr _ _ _ _ _ _ _ W); auto.
    - intros n [Hn|(z & Gz & Hz & ->)]; [apply (w_depth _ _ _ _ _ _ _ WU); left; exact Hn|]. rewrite rep_depth, rep_hm by exact Gz. apply (w_depth _ _ _ _ _ _ _ W). exact Gz.
    - intros n [Hn|(z & Gz & Hz & ->)]; [apply (w_fresh _ _ _ _ _ _ _ WU); left; exact Hn|]. rewrite rep_hm by exact Gz. rewrite (proj2 (rep_kids z Gz Hz)). apply (w_fresh _ _ _ _ _ _ _ W). exact Gz.
    - intros a id d t [Hn|(z & Gz & Hz & E)]; [apply (w_assume _ _ _ _ _ _ _ WU a id d t); left; exact Hn|].
      destruct z as [a0 id0 d0 t0|a0 id0 d0 cl0 r0 ps0 args0 ds0 prev0|a0 l0 args0 out0 extra0]; [rewrite rep_assume in E by exact Gz|rewrite rep_step in E by assumption; discriminate|rewrite rep_sub in E by assumption; discriminate].
      injection E as -> -> -> ->. eapply (w_assume _ _ _ _ _ _ _ W); exact Gz.
    - intros a id d cl r ps args ds [Hn|(z & Gz & Hz & E)]; [apply (w_step _ _ _ _ _ _ _ WU a id d cl r ps args ds); left; exact Hn|].
      destruct z as [a0 id0 d0 t0|a0 id0 d0 cl0 r0 ps0 args0 ds0 prev0|a0 l0 args0 out0 extra0]; [rewrite rep_assume in E by exact Gz; discriminate|rewrite rep_step in E by assumption|rewrite rep_sub in E by assumption; discriminate].
      destruct prev0 as [p0|]; [discriminate|]. injection E as -> -> -> -> -> -> -> ->. destruct (w_step _ _ _ _ _ _ _ W _ _ _ _ _ _ _ _ Gz) as (-> & B & _ & C). split; [reflexivity|].
      assert (Gp : forall p, In p ps0 -> G p) by (intros p Hp; apply (kid_in _ _ Gz); cbn [kids]; apply in_app_iff; auto). split.
      + intros p Hp. apply in_map_iff in Hp. destruct Hp as (q & <- & Hq). rewrite rep_plain, rep_hm by auto. apply B. exact Hq.
      + split; [eapply HR; [exact Gz|]; intros E; apply Hz; apply (w_addr _ _ _ _ _ _ _ W); auto; apply Hold|]. rewrite rep_clauses by exact Gp. exact C.
    - intros a l args out extra [Hn|(z & Gz & Hz & E)].
      + destruct (w_sub _ _ _ _ _ _ _ WU a l args out extra (or_introl Hn)) as (A1 & A2 & A3 & al & id & d & cl & r & ps & sargs & ds & p & B1 & B2 & B3 & B4 & B5 & B6 & B7 & B8 & B9 & B10).
        split; [exact A1|]. split; [exact A2|]. split; [exact A3|]. exists al, id, d, cl, r, ps, sargs, ds, p. repeat (split; [assumption|]). split; [|exact B10].
        intros x [Hx|(z & Gz & Hz & ->)] Hp Hh; [apply B9; auto; left; exact Hx|]. destruct z as [a0 id0 d0 t0|a0 id0 d0 cl0 r0 ps0 args0 ds0 prev0|a0 l0 args0 out0 extra0]; [|rewrite rep_step in Hp by assumption; discriminate|rewrite rep_sub in Hp by assumption; discriminate].
        rewrite rep_assume in * by exact Gz. apply B9; auto. right. split; [exact Gz|]. intros [E|[]]. exact (Hz E).
      + destruct z as [a0 id0 d0 t0|a0 id0 d0 cl0 r0 ps0 args0 ds0 prev0|a0 l0 args0 out0 extra0]; [rewrite rep_assume in E by exact Gz; discriminate|rewrite rep_step in E by assumption; discriminate|rewrite rep_sub in E by assumption]. injection E as -> -> -> -> ->.
        destruct (w_sub _ _ _ _ _ _ _ W _ _ _ _ _ Gz) as (A1 & A2 & A3 & al & id & d & cl & r & ps & sargs & ds & p & B1 & B2 & B3 & B4 & B5 & B6 & B7 & (_ & B8) & B9 & B10).
        pose proof (last_not_old _ _ _ _ _ Gz) as Hl. assert (Gl : G l0) by (apply (kid_in _ _ Gz); left; reflexivity).
        assert (Gk : forall x, In x (ps ++ ds ++ [p]) -> G x) by (intros x Hx; apply (kid_in _ _ Gl); rewrite B1; exact Hx).
        assert (Go : forall x, In x (out0 ++ extra0) -> G x) by (intros x Hx; apply (kid_in _ _ Gz); right; exact Hx).
        assert (Eds : map rep ds = ds) by (apply disch_id; intros x Hx; split; [apply Gk; rewrite !in_app_iff; auto|apply B6; exact Hx]).
        split; [exact A1|]. split; [intros o Ho; apply in_map_iff in Ho; destruct Ho as (q & <- & Hq); rewrite rep_plain, rep_hm by (apply Go; apply in_app_iff; auto); apply A2; exact Hq|].
        split; [intros o Ho; apply in_map_iff in Ho; destruct Ho as (q & <- & Hq); rewrite rep_plain, rep_hm by (apply Go; apply in_app_iff; auto); apply A3; exact Hq|].
        assert (Gp : G p) by (apply Gk; rewrite !in_app_iff; cbn; auto).
        exists al, id, d, cl, r, (map rep ps), sargs, ds, (rep p). split; [rewrite B1 in *; rewrite rep_step by assumption; rewrite Eds; reflexivity|]. split; [exact B2|]. rewrite rep_plain, rep_hm by exact Gp. split; [exact B3|]. split; [exact B4|].
        split; [intros o Ho; apply in_map_iff in Ho; destruct Ho as (q & <- & Hq); rewrite rep_plain, rep_hm by (apply Gk; apply in_app_iff; auto); apply B5; exact Hq|]. split; [exact B6|]. split; [exact B7|].
        split; [split|split].
        * eapply HR; [rewrite B1 in Gl; exact Gl|]. intros E. apply Hl. apply (w_addr _ _ _ _ _ _ _ W); [exact Gl|apply Hold|]. rewrite B1. exact E.
        * rewrite rep_clauses by (intros x Hx; apply Gk; apply in_app_iff; auto). rewrite rep_clause by exact Gp. exact B8.
        * intros x [Hx|(z & Gz' & Hz' & ->)] Hp Hh; [destruct (Hdis _ _ _ _ _ _ Gz Hx Hp Hh)|].
          destruct z as [a1 id1 d1 t1|a1 id1 d1 cl1 r1 ps1 args1 ds1 prev1|a1 l1 args1 out1 extra1]; [|rewrite rep_step in Hp by assumption; discriminate|rewrite rep_sub in Hp by assumption; discriminate].
          rewrite rep_assume in * by exact Gz'. apply B9; auto.
        * destruct B10 as [(e & Ee & Hpe & Hse)|Hpe].
          -- left. exists (map rep e). split; [rewrite Ee, map_app; reflexivity|]. split; [apply rep_not_in; auto; intros z Hz'; apply Go; rewrite Ee, !in_app_iff; auto|].
             rewrite <- Eds, <- map_app. intros q Hq. apply in_map_iff in Hq. destruct Hq as (q0 & <- & Hq). rewrite rep_hm by (apply Gk; rewrite app_assoc; apply in_app_iff; auto). destruct (Hse q0 Hq) as [X|X]; [auto|right; apply in_map; exact X].
          -- right. rewrite <- Eds, <- !map_app. apply rep_not_in; auto. intros z Hz'. rewrite in_app_iff in Hz'. destruct Hz' as [Hz'|Hz']; [apply Go; apply in_app_iff; auto|apply Gk; rewrite app_assoc; apply in_app_iff; auto].
  Qed.
  (** the list made of the new graph is accepted *)
  Theorem replace_check forest fuel out : allowed cfg = [] -> (forall n, In n forest -> G n /\ plain_node n = true /\ hm n = []) -> (exists n, In n forest /\ pclause n = []) ->
    to_list fuel (map (replace_node (paddr old) new) forest) = ROk out -> (exists b, check table cfg prems out = ROk b) /\ forall s, In s (proof_steps out) -> R (s_rule s).
  Proof.
    intros Hal HF (n0 & Hn0 & Hc) Hrun. eapply (graph_check table cfg prems replaced home an R wfg_replace Hal); [| |exact Hrun].
    - intros n Hn. apply in_map_iff in Hn. destruct Hn as (m & <- & Hm). destruct (HF m Hm) as (A & B & C). fold rep. rewrite rep_plain, rep_hm by exact A. split; [apply rep_in; exact A|auto].
    - exists (rep n0). split; [apply in_map; exact Hn0|]. rewrite rep_clause by apply (HF n0 Hn0). exact Hc.
  Qed.
  (** ** The conversion to a list ends *)
  Hypothesis CG : complete G home.
  Hypothesis CN : complete N home.
  Hypothesis Hnn : forall a l args out extra y q, G (PSub a l args out extra) -> N y -> hm y = home a ++ [a] -> In q (deps y) -> hm q = hm y.
  Hypothesis Hng : forall a l args out extra x, N (PSub a l args out extra) -> G x -> hm x <> home a ++ [a].
  Lemma rep_deps x : G x -> x <> old -> deps (rep x) = map rep (deps x).
  Proof.
    intros Hx Hn. destruct x as [a id d t|a id d cl r ps args ds prev|a l args out extra].
    - rewrite rep_assume by exact Hx. reflexivity.
    - rewrite rep_step by assumption. reflexivity.
    - rewrite rep_sub by assumption. reflexivity.
  Qed.
  Lemma dep_kid x q : In q (deps x) -> In q (kids x).
  Proof. destruct x as [a id d t|a id d cl r ps args ds prev|a l args out extra]; cbn [deps kids]; [auto| |]; intros H; [|right]; apply in_app_iff; auto. Qed.
  Lemma rep_sub_inv a l args out extra : replaced (PSub a l args out extra) -> N (PSub a l args out extra) \/
    exists l0 out0 extra0, G (PSub a l0 args out0 extra0) /\ out = map rep out0 /\ extra = map rep extra0.
  Proof.
    intros [H|(x & Gx & Hx & E)]; [left; exact H|right]. destruct x as [a0 id d t|a0 id d cl r ps args0 ds prev|a0 l0 args0 out0 extra0].
    - rewrite rep_assume in E by exact Gx. discriminate.
    - rewrite rep_step in E by assumption. discriminate.
    - rewrite rep_sub in E by assumption. injection E as -> -> -> -> ->. eauto 7.
  Qed.
  Lemma replaced_complete : complete replaced home.
  Proof.
    split.
    - intros a l args out extra y q Hs Hy Hh Hq. destruct (rep_sub_inv _ _ _ _ _ Hs) as [Ns|(l0 & out0 & extra0 & Gs & -> & _)]; destruct Hy as [Ny|(x & Gx & Hx & ->)].
      + exact (c_deps _ _ CN _ _ _ _ _ _ _ Ns Ny Hh Hq).
      + rewrite rep_hm in Hh by exact Gx. destruct (Hng _ _ _ _ _ _ Ns Gx Hh).
      + left. rewrite <- Hh. exact (Hnn _ _ _ _ _ _ _ Gs Ny Hh Hq).
      + rewrite rep_hm in Hh by exact Gx. rewrite rep_deps in Hq by assumption. apply in_map_iff in Hq. destruct Hq as (q0 & <- & Hq). assert (Gq : G q0) by (apply (kid_in x); [exact Gx|apply dep_kid; exact Hq]). rewrite rep_hm by exact Gq.
        destruct (c_deps _ _ CG _ _ _ _ _ _ _ Gs Gx Hh Hq) as [H|H]; [left; exact H|right; apply in_map; exact H].
    - intros a l args out extra e Hs He. destruct (rep_sub_inv _ _ _ _ _ Hs) as [Ns|(l0 & out0 & extra0 & Gs & _ & ->)]; [exact (c_extra _ _ CN _ _ _ _ _ _ Ns He)|]. apply in_map_iff in He. destruct He as (e0 & <- & He).
      rewrite rep_hm; [exact (c_extra _ _ CG _ _ _ _ _ _ Gs He)|]. apply (kid_in _ _ Gs). cbn [kids]. right. apply in_app_iff. auto.
  Qed.
  Theorem replace_done forest : (forall n, In n forest -> G n /\ plain_node n = true /\ hm n = []) -> exists fuel out, to_list fuel (map (replace_node (paddr old) new) forest) = ROk out.
  Proof.
    intros HF. apply (graph_done table cfg prems replaced home an R wfg_replace replaced_complete).
    intros n Hn. apply in_map_iff in Hn. destruct Hn as (m & <- & Hm). destruct (HF m Hm) as (A & B & C). fold rep. rewrite rep_plain, rep_hm by exact A. split; [apply rep_in; exact A|auto].
  Qed.
End Replace.
