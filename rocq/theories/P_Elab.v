(** C34: elaboration.  [accepted other cx n] (Elab.v): the checker in elaborated mode accepts every step of the tree [n] in the context [cx]; the premises of the
    tree that are taken over from the proof under elaboration are [EPrem] nodes or nodes assumed to be accepted. *)
From Coq Require Import List String ZArith Bool Arith Lia Permutation.
From Verif Require Import Base Term Sem Rules R_Taut R_Claus R_Eq R_Resolution R_Extras R_ResExact Utils Checker R_Binder R_Simp Table Elab ElabSound ElabCong ElabFlip ElabTrans ElabCongr ElabRes ElabLocal ElabRefute.
Import ListNotations.
Open Scope string_scope.
Local Open Scope nat_scope.
Local Open Scope list_scope.

(** Elaborating with [e] gives a proof of the clause [c] that is accepted in the context [cx]. *)
Definition elaborates (e : outcome enode) (cx : list (list anchor)) (c : clause) : Prop :=
  exists n, e = ROk n /\ eclause n = c /\ forall other, accepted other cx n.

(** ** Whole steps: every accepted trans and cong step *)
Theorem C34_trans other cx c ps args : r_trans c (map eclause ps) args = ROk tt -> Forall (accepted other cx) ps ->
  exists n, elab_trans c ps args = ROk n /\ eclause n = c /\ accepted other cx n.
Proof. apply elab_trans_ok. Qed.
Print Assumptions C34_trans.
(* a chain that is out of order and has an equality the wrong way around *)
Example trans_ex : let ps := map EPrem [[eqv_ "c" "b"]; [eqv_ "a" "b"]; [eqv_ "c" "d"]] in
  r_trans [eqv_ "a" "d"] (map eclause ps) [] = ROk tt /\
  elab_trans [eqv_ "a" "d"] ps [] =
    ROk (EStep [eqv_ "a" "d"] "trans" [EPrem [eqv_ "a" "b"]; EStep [eqv_ "b" "c"] "symm" [EPrem [eqv_ "c" "b"]] []; EPrem [eqv_ "c" "d"]] []).
Proof. vm_compute. auto. Qed.
Theorem C34_cong other cx c ps args : r_cong c (map eclause ps) args = ROk tt -> Forall (accepted other cx) ps ->
  exists n, elab_cong c ps args = ROk n /\ eclause n = c /\ accepted other cx n.
Proof. apply elab_cong_ok. Qed.
Print Assumptions C34_cong.
Example cong_ex : let ps := map EPrem [[eqv_ "b" "a"]] in
  r_cong [tEq (eqv_ "a" "c") (eqv_ "c" "b")] (map eclause ps) [] = ROk tt /\
  exists n, elab_cong [tEq (eqv_ "a" "c") (eqv_ "c" "b")] ps [] = ROk n /\ okb n = true.
Proof. split; [vm_compute; reflexivity|]. eexists. split; vm_compute; reflexivity. Qed.

(** ** eq_transitive: equalities that are all different, none in both orientations, none of them the conclusion *)
Theorem C34_eq_transitive_partial other cx qs a b ps args : let c := map nl qs ++ [tEq a b] in
  r_eq_transitive c ps args = ROk tt -> NoDup qs -> no_twins qs -> a <> b -> ~ In (a, b) qs -> ~ In (b, a) qs ->
  exists n, elab_eq_transitive c args = ROk n /\ eclause n = c /\ accepted other cx n.
Proof. apply elab_eq_transitive_ok. Qed.
Print Assumptions C34_eq_transitive_partial.
Definition et_ex : list (term * term) := [(vU "c", vU "b"); (vU "x", vU "y"); (vU "a", vU "b"); (vU "c", vU "d")].
Example eq_transitive_ex : let c := map nl et_ex ++ [eqv_ "a" "d"] in
  r_eq_transitive c [] [] = ROk tt /\ NoDup et_ex /\ no_twins et_ex /\ vU "a" <> vU "d" /\ ~ In (vU "a", vU "d") et_ex /\ ~ In (vU "d", vU "a") et_ex.
Proof.
  split; [vm_compute; reflexivity|]. split; [repeat constructor; cbn; intuition discriminate|].
  split; [intros p [<-|[<-|[<-|[<-|[]]]]] Hs; cbn in Hs; intuition discriminate|]. cbn. split; [discriminate|]. intuition discriminate.
Qed.
(** ... and without these conditions the result can be rejected *)
Theorem C34_eq_transitive_refuted : exists c, step_rejected r_eq_transitive elab_eq_transitive c.
Proof. exists et_extra. exact et_extra_rejected. Qed.
Print Assumptions C34_eq_transitive_refuted.
Theorem C34_eq_transitive_refl_refuted : step_rejected r_eq_transitive elab_eq_transitive et_refl.
Proof. exact et_refl_rejected. Qed.
Print Assumptions C34_eq_transitive_refl_refuted.
Theorem C34_eq_transitive_twins_refuted : step_rejected r_eq_transitive elab_eq_transitive et_twins.
Proof. exact et_twins_rejected. Qed.
Print Assumptions C34_eq_transitive_twins_refuted.

(** ** eq_congruent: no equality in both orientations *)
Theorem C34_eq_congruent_partial other cx qs x y ps args : let c := map nl qs ++ [tEq x y] in
  r_eq_congruent c ps args = ROk tt -> no_twins qs ->
  exists n, elab_eq_congruent c args = ROk n /\ eclause n = c /\ accepted other cx n.
Proof. apply elab_eq_congruent_ok. Qed.
Print Assumptions C34_eq_congruent_partial.
Example eq_congruent_ex : let qs := [(vU "b", vU "a"); (vU "b", vU "a")] in
  r_eq_congruent (map nl qs ++ [tEq (fU "a" "a") (fU "b" "b")]) [] [] = ROk tt /\ no_twins qs.
Proof. split; [vm_compute; reflexivity|]. intros p [<-|[<-|[]]] Hs; cbn in Hs; intuition discriminate. Qed.
Theorem C34_eq_congruent_refuted : exists c, step_rejected r_eq_congruent elab_eq_congruent c.
Proof. exists ec_twins. exact ec_twins_rejected. Qed.
Print Assumptions C34_eq_congruent_refuted.
Theorem C34_eq_congruent_swap_refuted : step_rejected r_eq_congruent elab_eq_congruent ec_swap.
Proof. exact ec_swap_rejected. Qed.
Print Assumptions C34_eq_congruent_swap_refuted.

(** ** resolution without pivots: regular resolutions ([regular_step]) *)
Theorem C34_resolution_partial other cx name c ps p0 l : map eclause (map snd ps) = p0 :: map fst l -> l <> [] -> NoDup (map fst ps) ->
  Forall (accepted other cx) (map snd ps) -> regular_step c p0 l ->
  exists args, elab_resolution name c ps [] = ROk (EStep c "resolution" (map snd ps) args) /\ pivots args (map snd l) /\
    accepted other cx (EStep c "resolution" (map snd ps) args).
Proof. apply elab_resolution_ok. Qed.
Print Assumptions C34_resolution_partial.
Definition res_ex : list (clause * (lit * bool)) := [([n_ "a"; vB "c"], ((0, vB "a"), true)); ([vB "b"; n_ "d"], ((0, vB "b"), false))].
Example resolution_ex : regular_step [vB "c"; n_ "d"] [vB "a"; n_ "b"] res_ex.
Proof.
  split.
  - cbn. split; [auto|]. split; [intros x [<-|[<-|[]]]; cbn; intros E; first [reflexivity|discriminate E]|]. split; [exists [], [(0, vB "c")]; split; [reflexivity|]; intros x [<-|[]]; discriminate|].
    split; [intros E x [<-|[]] [<-|[<-|[]]]; discriminate|]. split; [auto|]. split; [intros x [<-|[<-|[<-|[<-|[]]]]]; cbn; intros E; first [reflexivity|discriminate E]|].
    split; [exists [], [(1, vB "d")]; split; [reflexivity|]; intros x [<-|[]]; discriminate|]. split; [intros E x []|exact I].
  - intros x. cbn. split.
    + intros [<-|[<-|[]]]; (split; [tauto|]); cbn; intros [H|[H|[]]]; discriminate.
    + intros [[<-|[<-|[<-|[<-|[<-|[<-|[]]]]]]] H]; cbn in H; intuition.
Qed.
Theorem C34_resolution_true other cx name p : accepted other cx p -> eclause p = [tNot tTrue] ->
  exists n i, elab_resolution name [] [(i, p)] [] = ROk n /\ eclause n = [] /\ accepted other cx n.
Proof. apply elab_resolution_true_ok. Qed.
Print Assumptions C34_resolution_true.
(** ... and otherwise *)
Theorem C34_resolution_refuted : exists c ps, res_rejected c ps.
Proof. exists [], (prems_of rs_false). exact rs_false_rejected. Qed.
Print Assumptions C34_resolution_refuted.
Theorem C34_resolution_negations_refuted : res_rejected [tNot (tNot (tNot (n_ "f")))] (prems_of rs_four) /\ res_panics [vB "f"] (prems_of rs_drop).
Proof. split; [exact rs_four_rejected|exact rs_drop_panics]. Qed.
Print Assumptions C34_resolution_negations_refuted.
Theorem C34_resolution_idle_refuted : res_rejected [vB "b"] (prems_of rs_idle) /\ res_rejected [vB "b"; vB "c"; vB "d"] (prems_of rs_twice) /\
  res_rejected [] (prems_of rs_empty) /\ res_rejected [vB "a"] [(0, EPrem [vB "a"]); (0, EPrem [vB "a"])].
Proof. repeat split; first [exact rs_idle_rejected|apply rs_idle_rejected|apply rs_twice_rejected|apply rs_empty_rejected|apply rs_same_rejected]. Qed.
Print Assumptions C34_resolution_idle_refuted.
Theorem C34_resolution_rup_refuted : res_panics [vB "c"] (prems_of rs_rup).
Proof. exact rs_rup_panics. Qed.
Print Assumptions C34_resolution_rup_refuted.

(** ** The local pass over a whole proof *)
Theorem C34_local_partial other n cx : fits_all other cx n -> exists n', elab_local n = ROk n' /\ eclause n' = eclause n /\ accepted other cx n'.
Proof. apply elab_local_ok. Qed.
Print Assumptions C34_local_partial.
Definition local_ex : enode :=
  EStep [tEq (fU "a" "x") (fU "c" "x")] "cong" [EStep [eqv_ "c" "a"] "trans" [EPrem [eqv_ "b" "a"]; EPrem [eqv_ "c" "b"]] []] [].
Example local_ex_fits other cx : fits_all other cx local_ex /\ exists n, elab_local local_ex = ROk n /\ n <> local_ex.
Proof.
  split.
  - cbn. split; [apply Fit_cong; vm_compute; reflexivity|]. split; [|exact I]. split; [apply Fit_trans; vm_compute; reflexivity|]. auto.
  - eexists. split; [vm_compute; reflexivity|]. discriminate.
Qed.
