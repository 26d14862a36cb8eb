(** The scheduler of the parallel checker (checker/parallel/scheduler.rs). *)
From Coq Require Import List String ZArith NArith Bool Arith Lia.
From Verif Require Import Base Term Rules Checker.
Import ListNotations.
Local Open Scope nat_scope.

(** scheduler.rs:13-16: an entry (depth, index); [None] stands for [usize::MAX], which marks the end of a
    subproof. A schedule is kept newest entry first. *)
Definition entry : Type := (nat * option nat)%type.
(** scheduler.rs:72-88 [StackLevel]; the hash set [used_by] is a list *)
Record level : Type := mkLv { lv_id : nat; lv_cmds : list command; lv_pre : option (nat * nat); lv_used : list nat }.

(** scheduler.rs:308-415 [get_step_weight] *)
Definition weights : list (string * N) := [("assume", 230); ("true", 0); ("false", 263); ("not_not", 574); ("and_pos", 361);
   ("and_neg", 607); ("or_pos", 640); ("or_neg", 460); ("xor_pos1", 763); ("xor_pos2", 345);
   ("xor_neg1", 0); ("xor_neg2", 0); ("implies_pos", 394); ("implies_neg1", 214); ("implies_neg2", 287);
   ("equiv_pos1", 763); ("equiv_pos2", 541); ("equiv_neg1", 434); ("equiv_neg2", 476); ("ite_pos1", 804);
   ("ite_pos2", 344); ("ite_neg1", 566); ("ite_neg2", 542); ("eq_reflexive", 451); ("eq_transitive", 780);
   ("eq_congruent", 722); ("eq_congruent_pred", 632); ("distinct_elim", 812); ("la_rw_eq", 1091); ("la_generic", 87564);
   ("la_disequality", 919); ("la_totality", 0); ("la_tautology", 4291); ("forall_inst", 7877); ("qnt_join", 2347);
   ("qnt_rm_unused", 3659); ("resolution", 7491); ("th_resolution", 2462); ("refl", 1305); ("trans", 575);
   ("cong", 984); ("ho_cong", 0); ("and", 493); ("tautology", 0); ("not_or", 476);
   ("or", 426); ("not_and", 927); ("xor1", 0); ("xor2", 0); ("not_xor1", 0);
   ("not_xor2", 0); ("implies", 788); ("not_implies1", 402); ("not_implies2", 484); ("equiv1", 837);
   ("equiv2", 812); ("not_equiv1", 418); ("not_equiv2", 451); ("ite1", 509); ("ite2", 493);
   ("not_ite1", 722); ("not_ite2", 476); ("ite_intro", 3192); ("contraction", 1731); ("connective_def", 705);
   ("ite_simplify", 1797); ("eq_simplify", 845); ("and_simplify", 1165); ("or_simplify", 1133); ("not_simplify", 787);
   ("implies_simplify", 1231); ("equiv_simplify", 1337); ("bool_simplify", 1436); ("qnt_simplify", 517); ("div_simplify", 2117);
   ("prod_simplify", 2527); ("unary_minus_simplify", 0); ("minus_simplify", 1059); ("sum_simplify", 2248); ("comp_simplify", 1781);
   ("nary_elim", 0); ("ac_simp", 9781); ("bfun_elim", 8558); ("bind", 5924); ("qnt_cnf", 14244);
   ("subproof", 262); ("let", 4718); ("onepoint", 7787); ("sko_ex", 9321); ("sko_forall", 12242);
   ("reordering", 1452); ("symm", 682); ("not_symm", 0); ("eq_symmetric", 673); ("weakening", 508);
   ("bind_let", 2324); ("la_mult_pos", 1446); ("la_mult_neg", 1447); ("hole", 185); ("trust", 185);
   ("strict_resolution", 1276)]%N%string.
Definition rule_weight (r : string) : N :=
  match find (fun p => String.eqb (fst p) r) weights with Some p => snd p | None => 0%N end.
Definition weight (c : command) : N :=
  match c with CAssume _ _ => 230%N | CSub _ _ _ => 0%N | CStep s => rule_weight (s_rule s) end.

(** [stack[d]]: the stack is kept innermost level first *)
Fixpoint at_depth (stk : list level) (d : nat) : option level :=
  match stk with
  | [] => None
  | l :: r => if Nat.eqb (List.length r) d then Some l else at_depth r d
  end.
Fixpoint upd_depth (stk : list level) (d : nat) (f : level -> level) : list level :=
  match stk with
  | [] => []
  | l :: r => if Nat.eqb (List.length r) d then f l :: r else l :: upd_depth r d f
  end.
Definition add_user (w : nat) (l : level) : level :=
  mkLv (lv_id l) (lv_cmds l) (lv_pre l) (if memb Nat.eqb w (lv_used l) then lv_used l else w :: lv_used l).
Definition fupd {A} (f : nat -> A) (k : nat) (v : A) : nat -> A := fun j => if Nat.eqb j k then v else f j.
(** [v[i] = f(v[i])] on a vector, panicking when out of range *)
Fixpoint vec_upd (v : list nat) (i : nat) (f : nat -> outcome nat) : outcome (list nat) :=
  match v, i with
  | [], _ => RPanic
  | x :: r, 0 => do y <- f x ; ROk (y :: r)
  | x :: r, S i => do r' <- vec_upd r i f ; ROk (x :: r')
  end.
Definition incr (n : nat) : outcome nat := ROk (S n).
Definition decr (n : nat) : outcome nat := match n with 0 => RPanic | S m => ROk m end.

Definition loads_t : Type := nat -> list entry.

(** scheduler.rs:118-138: the body of the [for] over [used_by]; [len] is [stack.len()] *)
Definition close1 (stk : list level) (w : nat) (st : loads_t * list nat) : outcome (loads_t * list nat) :=
  let (loads, usage) := st in
  match loads w with
  | [] => RPanic
  | (d, x) :: rest =>
      let push := ROk (fupd loads w ((List.length stk - 1, None) :: loads w), usage) in
      if Nat.ltb d (List.length stk) then
        do lv <- unwrap (at_depth stk d) ;
        do i <- unwrap x ;
        do c <- unwrap (nth_error (lv_cmds lv) i) ;
        match c with
        | CSub _ _ id => do usage' <- vec_upd usage id decr ; ROk (fupd loads w rest, usage')
        | _ => push
        end
      else push
  end.
Fixpoint close_users (stk : list level) (ws : list nat) (st : loads_t * list nat) : outcome (loads_t * list nat) :=
  match ws with
  | [] => ROk st
  | w :: r => do st' <- close1 stk w st ; close_users stk r st'
  end.
(** scheduler.rs:112-140: pop the finished subproofs *)
Fixpoint close_all (stk : list level) (st : loads_t * list nat) : outcome (list level * (loads_t * list nat)) :=
  match stk with
  | [] => ROk ([], st)
  | l :: r =>
      if Nat.eqb (lv_id l) (List.length (lv_cmds l)) then
        do st' <- close_users stk (lv_used l) st ; close_all r st'
      else ROk (stk, st)
  end.

(** scheduler.rs:157-164 *)
Definition initial_layer (load : list entry) : outcome nat :=
  match load with
  | [] => ROk 0
  | (d, Some _) :: _ => ROk d
  | (S d, None) :: _ => ROk d
  | (0, None) :: _ => RPanic
  end.
Definition entry_eqb (a : entry) (p : nat * nat) : bool :=
  Nat.eqb (fst a) (fst p) && match snd a with Some i => Nat.eqb i (snd p) | None => false end.
Definition last_is (load : list entry) (p : nat * nat) : bool :=
  match load with [] => false | e :: _ => entry_eqb e p end.
Record sst : Type := mkS { ss_loads : loads_t; ss_stack : list level; ss_usage : list nat }.
(** scheduler.rs:167-184: the body of the second loop, for the level [k = initial_layer + i] *)
Definition open1 (w : nat) (st : sst) (k : nat) : outcome sst :=
  do lv <- unwrap (at_depth (ss_stack st) k) ;
  do pre <- unwrap (lv_pre lv) ;
  if last_is (ss_loads st w) pre then ROk st
  else
    let stk' := upd_depth (ss_stack st) (fst pre) (add_user w) in
    do plv <- unwrap (at_depth stk' (fst pre)) ;
    do c <- unwrap (nth_error (lv_cmds plv) (snd pre)) ;
    match c with
    | CSub _ _ id =>
        do usage' <- vec_upd (ss_usage st) id incr ;
        ROk (mkS (fupd (ss_loads st) w ((fst pre, Some (snd pre)) :: ss_loads st w)) stk' usage')
    | _ => RPanic
    end.
Fixpoint open_levels (w : nat) (st : sst) (ks : list nat) : outcome sst :=
  match ks with
  | [] => ROk st
  | k :: r => do st' <- open1 w st k ; open_levels w st' r
  end.
(** scheduler.rs:155-200: give the next command to worker [w] *)
Definition give (w : nat) (st : sst) : outcome sst :=
  let d := List.length (ss_stack st) - 1 in
  do l0 <- initial_layer (ss_loads st w) ;
  do st1 <- open_levels w st (seq (S l0) (d - l0)) ;
  match ss_stack st1 with
  | [] => RPanic
  | top :: out =>
      let i := lv_id top in
      do c <- unwrap (nth_error (lv_cmds top) i) ;
      let loads' := fupd (ss_loads st1) w ((d, Some i) :: ss_loads st1 w) in
      let top' := add_user w (mkLv (S i) (lv_cmds top) (lv_pre top) (lv_used top)) in
      match c with
      | CSub sub _ _ => ROk (mkS loads' (mkLv 0 sub (Some (d, i)) [w] :: top' :: out) (ss_usage st1 ++ [1]))
      | _ => ROk (mkS loads' (top' :: out) (ss_usage st1))
      end
  end.

Section Sched.
  (** The priority queue of worker loads (scheduler.rs:44-68, 108, 145-153): popping a worker with minimal
      load, adding a weight and pushing it back. The theorems hold for any queue. *)
  Variable Q : Type.
  Variable assign : Q -> N -> option (nat * Q).
  (** scheduler.rs:111-201; fuel counts the commands, see [sched_correct] *)
  Fixpoint sched_loop (fuel : nat) (q : Q) (st : sst) : outcome sst :=
    do x <- close_all (ss_stack st) (ss_loads st, ss_usage st) ;
    let st0 := mkS (fst (snd x)) (fst x) (snd (snd x)) in
    match fst x with
    | [] => ROk st0
    | top :: _ =>
        match fuel with
        | 0 => RPanic
        | S n =>
            do c <- unwrap (nth_error (lv_cmds top) (lv_id top)) ;
            do wq <- unwrap (assign q (weight c)) ;
            do st1 <- give (fst wq) st0 ;
            sched_loop n (snd wq) st1
        end
    end.
  (** scheduler.rs:102-203 [Scheduler::new] *)
  Definition schedule (q : Q) (proof : list command) : outcome (loads_t * list nat) :=
    do st <- sched_loop (cmds_size proof) q (mkS (fun _ => []) [mkLv 0 proof None []] []) ;
    ROk (fun w => rev (ss_loads st w), ss_usage st).
End Sched.

(** ** The iterator of a schedule, scheduler.rs:206-290. The stack is the one of Checker.v: its first
    components record the index after the last returned command, which the Rust code looks up in
    [steps[step_id - 1]]. [None] models a panic. *)
Definition visit : Type := (command * stack)%type.
Definition enter (c : command) (stk : stack) : stack :=
  match c with CSub sub _ _ => (0, sub) :: stk | _ => stk end.
Fixpoint sched_iter (steps : list entry) (stk : stack) : option (list visit) :=
  match steps with
  | [] => Some []
  | (_, None) :: r => match stk with [] => None | _ :: out => sched_iter r out end
  | (_, Some i) :: r =>
      match stk with
      | [] => None
      | (_, cs) :: out =>
          match nth_error cs i with
          | None => None
          | Some c =>
              let stk' := enter c ((S i, cs) :: out) in
              match sched_iter r stk' with Some vs => Some ((c, stk') :: vs) | None => None end
          end
      end
  end.

(** ** Rust's [BinaryHeap] over [AssignedLoad] (scheduler.rs:44-68; alloc::collections::binary_heap):
    a vector in which a parent is never greater than its child; [x <= y] of [AssignedLoad] is the reverse
    order of the loads. *)
Definition aload : Type := (N * nat)%type.
Definition aload_le (a b : aload) : bool := N.leb (fst b) (fst a).
Definition hget (h : list aload) (i : nat) : aload := nth i h (0%N, 0).
Fixpoint hset (h : list aload) (i : nat) (x : aload) : list aload :=
  match h, i with [], _ => [] | _ :: r, 0 => x :: r | y :: r, S i => y :: hset r i x end.
(** [sift_up]: fuel bounds the height *)
Fixpoint sift_up (fuel : nat) (h : list aload) (pos : nat) (x : aload) : list aload :=
  match fuel, pos with
  | 0, _ | _, 0 => hset h pos x
  | S n, _ =>
      let parent := Nat.div2 (pos - 1) in
      if aload_le x (hget h parent) then hset h pos x
      else sift_up n (hset h pos (hget h parent)) parent x
  end.
(** [sift_down_to_bottom] *)
Fixpoint sift_bottom (fuel : nat) (h : list aload) (pos : nat) (x : aload) : list aload :=
  match fuel with
  | 0 => hset h pos x
  | S n =>
      let e := List.length h in
      let child := 2 * pos + 1 in
      if Nat.leb child (e - 2) then
        let child' := if aload_le (hget h child) (hget h (S child)) then S child else child in
        sift_bottom n (hset h pos (hget h child')) child' x
      else if Nat.eqb child (e - 1) then sift_up n (hset h pos (hget h child)) child x
      else sift_up n h pos x
  end.
Definition heap_push (h : list aload) (x : aload) : list aload :=
  let h' := h ++ [x] in sift_up (List.length h') h' (List.length h) x.
Definition heap_pop (h : list aload) : option (aload * list aload) :=
  match rev h with
  | [] => None
  | x :: r => match rev r with
              | [] => Some (x, [])
              | (y :: _) as h' => Some (y, sift_bottom (S (List.length h')) h' 0 x)
              end
  end.
(** scheduler.rs:108-110 and 145-153 *)
Definition heap_init (n : nat) : list aload := fold_left heap_push (map (fun i => (0%N, i)) (seq 0 n)) [].
Definition heap_assign (h : list aload) (wt : N) : option (nat * list aload) :=
  match heap_pop h with
  | Some ((l, w), h') => Some (w, heap_push h' ((l + wt)%N, w))
  | None => None
  end.
Definition schedule_n (n : nat) (proof : list command) := schedule _ heap_assign (heap_init n) proof.

Definition dstep (id : string) (r : string) : command := CStep (mkStep id [] r [] [] []).
Definition sub2 : command := CSub [dstep "t1.t1" "hole"; dstep "t1" "hole"] [] 0.
