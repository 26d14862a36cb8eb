(** What the parser guarantees ([proof_parsed]) holds of every proof that is read from a text. *)
From Coq Require Import List String ZArith Bool Arith Lia.
From Verif Require Import Base Term Field Sem Sorting Rules Utils Checker CheckerSound Parser ParserSound Lexer TermIO ProofIO ProofIOSound WellSorted NoPanicCheck.
Import ListNotations.
Local Open Scope nat_scope.

Definition fits (sc : list (list command)) (lens : list nat) : Prop := Forall2 (fun l n => List.length l <= n) sc lens.
Lemma lookup_in_range sc lens p c : fits sc lens -> lookup sc p = Some c -> in_range lens p = true.
Proof.
  unfold lookup, in_range. intros H. revert p. induction H as [|l n sc lens Hl _ IH]; intros [d i] E; cbn [fst snd] in *; [destruct d; discriminate|].
  destruct d as [|d]; cbn [nth_error] in *; [|apply (IH (d, i) E)]. apply Nat.ltb_lt. assert (i < List.length l) by (apply nth_error_Some; congruence). lia.
Qed.
Lemma refs_in_range sc lens l ns : fits sc lens -> mapo (ref_name sc) l = Some ns -> forallb (in_range lens) l = true.
Proof.
  intros Hf H. apply forallb_forall. intros p Hp. destruct (mapo_In _ _ _ H p Hp) as [n Hn]. unfold ref_name in Hn. destruct (lookup sc p) eqn:E; [|discriminate]. eapply lookup_in_range; eauto.
Qed.
Lemma printed_parsed : forall c sc lens rs, fits sc lens -> print_cmd c sc = Some rs -> shape_ok c = true -> all_wt c = true -> cmd_parsed lens c = true.
Proof.
  induction c as [id t|s|cs a k IH] using command_ind'; intros sc lens rs Hf Hp Hs Hw; cbn [cmd_parsed all_wt] in *.
  - exact Hw.
  - cbn [print_cmd] in Hp. destruct (print_step sc s) as [r|] eqn:E; [|discriminate]. unfold print_step in E. apply andb_true_iff in Hw. destruct Hw as [Hw _]. rewrite Hw.
    destruct (mapo (ref_name sc) (s_prems s)) eqn:E1; [|discriminate]. destruct (mapo (ref_name sc) (s_disch s)) eqn:E2; [|discriminate].
    rewrite (refs_in_range _ _ _ _ Hf E1), (refs_in_range _ _ _ _ Hf E2). reflexivity.
  - rewrite print_sub in Hp. destruct (cmd_id _); [|discriminate]. destruct (print_list sc cs []) as [r|] eqn:E; [|discriminate]. clear Hp.
    cbn [shape_ok] in Hs. rewrite !andb_true_iff in Hs. destruct Hs as [[H1 H2] Hs]. rewrite H1, H2. apply andb_true_iff in Hw. destruct Hw as [_ Hw]. cbn [andb].
    assert (G : forall l pre r, List.length pre + List.length l <= List.length cs -> Forall (fun c => In c cs) l -> print_list sc l pre = Some r -> forallb (cmd_parsed (lens ++ [List.length cs])) l = true).
    { induction l as [|x l IHl]; intros pre r' Hlen Hl Hr; [reflexivity|]. cbn [print_list] in Hr. destruct (print_cmd x (sc ++ [pre])) as [y|] eqn:Ex; [|discriminate].
      destruct (print_list sc l (pre ++ [x])) as [z|] eqn:Ez; [|discriminate]. inversion Hl as [|? ? Hx Hl']; subst. cbn [List.length] in Hlen. cbn [forallb].
      rewrite Forall_forall in IH. rewrite forallb_forall in Hs, Hw. rewrite (IH x Hx (sc ++ [pre]) (lens ++ [List.length cs]) y); auto.
      - apply (IHl (pre ++ [x]) z); auto. rewrite app_length. cbn. lia.
      - apply Forall2_app; [exact Hf|]. constructor; [lia|constructor]. }
    apply (G cs [] r); auto. apply Forall_forall. auto.
Qed.
Theorem read_proof_parsed cf holes sdecl E D txt proof : defs_wt D -> read_proof_text cf holes sdecl E D txt = ROk proof -> proof_parsed proof = true.
Proof.
  intros HD H. pose proof (read_proof_wt _ _ _ _ _ _ _ HD H) as Hw. destruct (text_raws _ _ _ _ _ _ _ H) as [rs Hp].
  pose proof (parse_shape _ _ Hp) as Hs. destruct (parse_print _ _ Hp) as [out [Ho _]]. unfold print_proof in Ho. unfold proof_parsed. rewrite forallb_forall in Hs, Hw.
  assert (G : forall l pre r, List.length pre + List.length l <= List.length proof -> Forall (fun c => In c proof) l -> print_list [] l pre = Some r -> forallb (cmd_parsed [List.length proof]) l = true).
  { induction l as [|x l IHl]; intros pre r' Hlen Hl Hr; [reflexivity|]. cbn [print_list app] in Hr. destruct (print_cmd x [pre]) as [y|] eqn:Ex; [|discriminate].
    destruct (print_list [] l (pre ++ [x])) as [z|] eqn:Ez; [|discriminate]. inversion Hl as [|? ? Hx Hl']; subst. cbn [List.length] in Hlen. cbn [forallb].
    rewrite (printed_parsed x [pre] [List.length proof] y); auto.
    - apply (IHl (pre ++ [x]) z); auto. rewrite app_length. cbn. lia.
    - constructor; [lia|constructor]. }
  apply (G proof [] out); auto. apply Forall_forall. auto.
Qed.
