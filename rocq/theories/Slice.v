(** slice.rs: cutting a step with its premises out of a proof. *)
From Coq Require Import List String ZArith NArith Bool Arith Lia.
From Verif Require Import Base Term Rules Utils Checker CheckerSound Parser.
Import ListNotations.

(** slice.rs:6-10 [PremiseType] *)
Inductive ptype : Type := PtDischarge | PtPremise | PtEnd.
Definition is_premise (e : string * ptype) : bool := match snd e with PtPremise => true | _ => false end.
(** [iter.get_premise(p).id()]: [sc] are the commands of the open subproofs, outermost first; an index out of range panics *)
Definition name_of (sc : list (list command)) (p : nat * nat) : outcome string := unwrap (ref_name sc p).
(** [commands\[len - 2\].id()]; slice.rs:48, 164, 208 *)
Definition penult (cs : list command) : outcome string :=
  if Nat.ltb (List.length cs) 2 then RPanic
  else do c <- unwrap (nth_error cs (List.length cs - 2)) ; unwrap (cmd_id c).
(** the premises of one step, slice.rs:33-52; [at_end]: the step ends the subproof *)
Definition step_edges (sc : list (list command)) (at_end : bool) (s : step) : outcome (list (string * ptype)) :=
  do ps <- omap (name_of sc) (s_prems s) ;
  do ds <- omap (name_of sc) (s_disch s) ;
  do e <- (if at_end then do p <- penult (last sc []) ; ROk [(p, PtEnd)] else ROk []) ;
  ROk (map (fun i => (i, PtPremise)) ps ++ map (fun i => (i, PtDischarge)) ds ++ e).
Definition emap : Type := list (string * list (string * ptype)).
(** get_step_to_premises, slice.rs:13-59: the iterator visits the commands in order, those of a subproof after the subproof itself *)
Fixpoint edges_cmd (c : command) (at_end : bool) (sc : list (list command)) (m : emap) {struct c} : outcome emap :=
  match c with
  | CAssume _ _ => ROk m
  | CStep s => do es <- step_edges sc at_end s ; ROk (im_insert String.eqb m (s_id s) es)
  | CSub cs _ _ =>
      (fix go (l : list command) (m : emap) {struct l} : outcome emap :=
         match l with
         | [] => ROk m
         | x :: r => do m <- edges_cmd x (match r with [] => true | _ => false end) (sc ++ [cs]) m ; go r m
         end) cs m
  end.
(** a step with this id occurs in the command *)
Fixpoint has_target (id : string) (c : command) : bool :=
  match c with
  | CAssume _ _ => false
  | CStep s => String.eqb (s_id s) id
  | CSub cs _ _ => existsb (has_target id) cs
  end.
(** the loop ends with the first top-level command in which the step occurs (54-56) *)
Fixpoint edges_top (proof : list command) (id : string) (l : list command) (m : emap) : outcome emap :=
  match l with
  | [] => ROk m
  | c :: r => do m <- edges_cmd c false [proof] m ; if has_target id c then ROk m else edges_top proof id r m
  end.
Definition step_to_premises (proof : list command) (id : string) : outcome emap := edges_top proof id proof [].

Definition kmap : Type := list (string * bool).
Definition kget (m : kmap) (i : string) : option bool := im_get String.eqb m i.
Definition kset (m : kmap) (i : string) (b : bool) : kmap := im_insert String.eqb m i b.
Definition succs (e : emap) (i : string) : list string :=
  match im_get String.eqb e i with Some l => map fst l | None => [] end.
(** get_transitive_premises, slice.rs:63-88. The queue is first in, first out and each element carries one less than the element that pushed
    it, so the loop works through the levels: [level] are the elements with the number [d], in order. *)
Fixpoint bfs (e : emap) (d : nat) (level : list string) (m : kmap) : kmap :=
  let keep := negb (Nat.eqb d 0) in
  let m := fold_left (fun m i => kset m i (keep || match kget m i with Some b => b | None => false end)) level m in
  match d with 0 => m | S d => bfs e d (flat_map (succs e) level) m end.
(** [max_distance + 1]; the overflow of usize is left out *)
Definition transitive (e : emap) (id : string) (max_distance : nat) : kmap := bfs e (S max_distance) [id] [].

(** the search for the step, slice.rs:115-137: the command and the subproofs it is in, outermost first, including itself if it is a subproof *)
Fixpoint find_cmd (id : string) (c : command) (encl : list (list command)) {struct c} : option (command * list (list command)) :=
  if match cmd_id c with Some i => String.eqb i id | None => false end
  then Some (c, match c with CSub cs _ _ => encl ++ [cs] | _ => encl end)
  else match c with
       | CSub cs _ _ =>
           (fix go (l : list command) : option (command * list (list command)) :=
              match l with
              | [] => None
              | x :: r => match find_cmd id x (encl ++ [cs]) with Some y => Some y | None => go r end
              end) cs
       | _ => None
       end.
Fixpoint find_list (id : string) (l : list command) (encl : list (list command)) : option (command * list (list command)) :=
  match l with
  | [] => None
  | x :: r => match find_cmd id x encl with Some y => Some y | None => find_list id r encl end
  end.

(** the context of the step, slice.rs:150-174 *)
Fixpoint keep_assumes (l : list command) (m : kmap) : kmap :=
  match l with
  | CAssume i _ :: r => keep_assumes r (kset m i false)
  | _ => m
  end.
Definition keep_context (m : kmap) (cs : list command) : outcome kmap :=
  let m := keep_assumes cs m in
  do p <- penult cs ;
  let m := match kget m p with Some _ => m | None => kset m p false end in
  do u <- (do c <- unwrap (nth_error cs (List.length cs - 1)) ; unwrap (cmd_id c)) ;
  ROk (kset m u true).
Fixpoint keep_contexts (sps : list (list command)) (m : kmap) : outcome kmap :=
  match sps with [] => ROk m | cs :: r => do m <- keep_context m cs ; keep_contexts r m end.

(** the state of the loop that copies, slice.rs:142, 188-191; the stack of frames is the recursion *)
Record cst : Type := mkC { c_idx : list (string * (nat * nat)); c_seen : bool; c_child : option (nat * nat) }.
Definition trust : term := TConst (CStr [116; 114; 117; 115; 116]%N).
Section Copy.
  Variables (keep : kmap) (edges : emap) (target : string).
  (** slice.rs:216-241: with its premises *)
  Definition full_step (st : cst) (s : step) : outcome step :=
    match im_get String.eqb edges (s_id s) with
    | Some es => do ps <- omap (fun e => unwrap (im_get String.eqb (c_idx st) (fst e))) (filter is_premise es) ;
                 ROk (mkStep (s_id s) (s_clause s) (s_rule s) ps (s_args s) (s_disch s))
    | None => ROk (mkStep (s_id s) (s_clause s) (s_rule s) [] (s_args s) [])
    end.
  (** 242-257: as a hole *)
  Definition hole_step (st : cst) (is_pen : bool) (s : step) : outcome step :=
    do ps <- (if c_seen st && is_pen then do ch <- unwrap (c_child st) ; ROk [ch] else ROk []) ;
    ROk (mkStep (s_id s) (s_clause s) "hole" ps [trust] []).
  (** 200-286; [sub] are the commands of the current subproof, [d] the depth and [cur] the commands of the last frame *)
  Definition copy_step (s : step) (sub : option (list command)) (d : nat) (cur : list command) (st : cst) : outcome (list command * cst) :=
    match kget keep (s_id s) with
    | None => ROk (cur, st)
    | Some need =>
        let is_target := String.eqb (s_id s) target in
        let st := mkC (c_idx st) (c_seen st || is_target) (c_child st) in
        do is_pen <- match sub with Some cs => do p <- penult cs ; ROk (String.eqb (s_id s) p) | None => ROk false end ;
        do s' <- (if need then full_step st s else hole_step st is_pen s) ;
        let here := (d, List.length cur) in
        let idx := match im_get String.eqb (c_idx st) (s_id s) with Some _ => c_idx st | None => im_insert String.eqb (c_idx st) (s_id s) here end in
        ROk (cur ++ [CStep s'], mkC idx (c_seen st) (if is_target then Some here else c_child st))
    end.
  (** 194-323. A subproof that is kept opens a frame, which its last step closes (269-284); of one that is not kept the commands go to the
      current frame. *)
  Fixpoint copy_cmd (c : command) (sub : option (list command)) (d : nat) (cur : list command) (st : cst) {struct c} : outcome (list command * cst) :=
    match c with
    | CAssume i _ =>
        match kget keep i with
        | None => ROk (cur, st)
        | Some _ => ROk (cur ++ [c], mkC (im_insert String.eqb (c_idx st) i (d, List.length cur)) (c_seen st) (c_child st))
        end
    | CStep s => copy_step s sub d cur st
    | CSub cs args k =>
        let go := fix go (l : list command) (d : nat) (cur : list command) (st : cst) {struct l} : outcome (list command * cst) :=
          match l with
          | [] => ROk (cur, st)
          | x :: r => do p <- copy_cmd x (Some cs) d cur st ; go r d (fst p) (snd p)
          end in
        do i <- unwrap (cmd_id c) ;
        match kget keep i with
        | Some true =>
            do p <- go cs (S d) [] (mkC (im_insert String.eqb (c_idx st) i (d, List.length cur)) (c_seen st) (c_child st)) ;
            let st := snd p in
            ROk (cur ++ [CSub (fst p) args k],
                 mkC (c_idx st) (c_seen st) (if c_seen st then Some (d, List.length cur) else c_child st))
        | _ => go cs d cur st
        end
    end.
  Fixpoint copy_list (l : list command) (sub : option (list command)) (d : nat) (cur : list command) (st : cst) : outcome (list command * cst) :=
    match l with
    | [] => ROk (cur, st)
    | x :: r => do p <- copy_cmd x sub d cur st ; copy_list r sub d (fst p) (snd p)
    end.
  Lemma copy_sub cs args k sub d cur st : copy_cmd (CSub cs args k) sub d cur st =
    (do i <- unwrap (cmd_id (CSub cs args k)) ;
     match kget keep i with
     | Some true =>
         do p <- copy_list cs (Some cs) (S d) [] (mkC (im_insert String.eqb (c_idx st) i (d, List.length cur)) (c_seen st) (c_child st)) ;
         ROk (cur ++ [CSub (fst p) args k],
              mkC (c_idx (snd p)) (c_seen (snd p)) (if c_seen (snd p) then Some (d, List.length cur) else c_child (snd p)))
     | _ => copy_list cs (Some cs) d cur st
     end).
  Proof.
    assert (H : forall l d cur st,
      (fix go (l : list command) (d : nat) (cur : list command) (st : cst) {struct l} : outcome (list command * cst) :=
          match l with
          | [] => ROk (cur, st)
          | x :: r => do p <- copy_cmd x (Some cs) d cur st ; go r d (fst p) (snd p)
          end) l d cur st = copy_list l (Some cs) d cur st).
    { induction l as [|x r IH]; intros d0 cur0 st0; [reflexivity|]. cbn [copy_list]. destruct (copy_cmd x (Some cs) d0 cur0 st0); cbn [obind]; auto. }
    cbn [copy_cmd]. destruct (unwrap (cmd_id (CSub cs args k))) as [i| |]; cbn [obind]; auto. destruct (kget keep i) as [[|]|]; auto. rewrite H. reflexivity.
  Qed.
End Copy.

Definition end_step (child : nat * nat) : step := mkStep "slice_end" [] "hole" [child] [trust] [].
(** get_slice_body, slice.rs:101-343 *)
Definition slice_body (proof : list command) (id : string) (max_distance : nat) : outcome (option (list command)) :=
  match find_list id proof [] with
  | None => ROk None
  | Some (from, encl) =>
      do edges <- step_to_premises proof id ;
      let keep := transitive edges id max_distance in
      match from with
      | CAssume _ _ => ROk None
      | _ =>
          do keep <- keep_contexts encl keep ;
          do p <- copy_list keep edges id proof None 0 [] (mkC [] false None) ;
          do ch <- unwrap (c_child (snd p)) ;
          ROk (Some (fst p ++ [CStep (end_step ch)]))
      end
  end.
(** slice, slice.rs:346-372: the proof and the assertions *)
Fixpoint leading_assumes (l : list command) : list term :=
  match l with CAssume _ t :: r => t :: leading_assumes r | _ => [] end.
Definition slice (proof : list command) (id : string) (max_distance : nat) : outcome (option (list command * list term)) :=
  do b <- slice_body proof id max_distance ;
  ROk (match b with Some l => Some (l, leading_assumes l) | None => None end).

(** ** The unit tests of slice.rs:374-508 *)
Local Open Scope string_scope.
Definition ta : term := TVar "a" SBool.
Definition tb : term := TVar "b" SBool.
Definition obb : term := TOp OOr [tb; tb].
Definition ex_text : list raw :=
  [RwAssume "a0" ta;
   RwStep "t0" [ta; tb] "hole" ["a0"] [] [];
   RwStep "t1" [tb; ta] "hole" ["t0"] [] [];
   RwStep "t2" [ta; tb; tNot ta] "hole" ["t0"] [] [];
   RwAnchor "t3" [];
   RwAssume "t3.a0" (tNot ta);
   RwStep "t3.t0" [tb] "hole" ["t3.a0"; "t1"] [] [];
   RwStep "t3.t1" [tb; tb] "hole" ["t3.t0"] [] [];
   RwStep "t3.t2" [obb] "hole" ["t3.t1"] [] [];
   RwStep "t3" [tNot (tNot ta); obb] "subproof" [] [] ["t3.a0"];
   RwStep "t4" [ta; obb] "hole" ["t3"] [] [];
   RwStep "t5" [] "hole" ["t4"; "a0"; "t2"] [] []].
Definition sliced (text : list raw) (id : string) (d : nat) : outcome (option (option (list raw))) :=
  do p <- parse_proof text ; do r <- slice p id d ; ROk (match r with Some x => Some (print_proof (fst x)) | None => None end).
Definition hole0 (i : string) (c : clause) : raw := RwStep i c "hole" [] [trust] [].
Definition rw_end (i : string) : raw := RwStep "slice_end" [] "hole" [i] [trust] [].
Example slice_none : sliced ex_text "FAKE_STEP" 0 = ROk None /\ sliced ex_text "a0" 0 = ROk None. Proof. split; reflexivity. Qed.
Example slice_t4 : sliced ex_text "t4" 0 = ROk (Some (Some
  [hole0 "t3" [tNot (tNot ta); obb]; RwStep "t4" [ta; obb] "hole" ["t3"] [] []; rw_end "t4"])). Proof. reflexivity. Qed.
Example slice_t3 : sliced ex_text "t3" 0 = ROk (Some (Some
  [RwAnchor "t3" []; RwAssume "t3.a0" (tNot ta); hole0 "t3.t2" [obb]; RwStep "t3" [tNot (tNot ta); obb] "subproof" [] [] ["t3.a0"]; rw_end "t3"])).
Proof. reflexivity. Qed.
Example slice_t3_t1 : sliced ex_text "t3.t1" 0 = ROk (Some (Some
  [RwAnchor "t3" []; RwAssume "t3.a0" (tNot ta); hole0 "t3.t0" [tb]; RwStep "t3.t1" [tb; tb] "hole" ["t3.t0"] [] [];
   RwStep "t3.t2" [obb] "hole" ["t3.t1"] [trust] []; RwStep "t3" [tNot (tNot ta); obb] "subproof" [] [] ["t3.a0"]; rw_end "t3"])).
Proof. reflexivity. Qed.
Example slice_t5_1 : sliced ex_text "t5" 1 = ROk (Some (Some
  [RwAssume "a0" ta; hole0 "t0" [ta; tb]; RwStep "t2" [ta; tb; tNot ta] "hole" ["t0"] [] []; hole0 "t3" [tNot (tNot ta); obb];
   RwStep "t4" [ta; obb] "hole" ["t3"] [] []; RwStep "t5" [] "hole" ["t4"; "a0"; "t2"] [] []; rw_end "t5"])).
Proof. reflexivity. Qed.
Example slice_t5_2 : sliced ex_text "t5" 2 = ROk (Some (Some
  [RwAssume "a0" ta; RwStep "t0" [ta; tb] "hole" ["a0"] [] []; RwStep "t2" [ta; tb; tNot ta] "hole" ["t0"] [] [];
   RwAnchor "t3" []; RwAssume "t3.a0" (tNot ta); hole0 "t3.t2" [obb]; RwStep "t3" [tNot (tNot ta); obb] "subproof" [] [] ["t3.a0"];
   RwStep "t4" [ta; obb] "hole" ["t3"] [] []; RwStep "t5" [] "hole" ["t4"; "a0"; "t2"] [] []; rw_end "t5"])).
Proof. reflexivity. Qed.
