(** The ids of the steps that the elaborator adds, elaborator/mod.rs:445-477. *)
From Coq Require Import List String Ascii Bool Arith Lia DecimalString DecimalNat.
From Verif Require Import Base.
Import ListNotations.
Local Open Scope string_scope.
Local Open Scope nat_scope.
Local Open Scope list_scope.

(** decimal digits, as [write!] prints a [usize] *)
Definition dec (n : nat) : string := NilEmpty.string_of_uint (Nat.to_uint n).
(** mod.rs:445-448 *)
Record idhelper : Type := mkIH { ih_root : string; ih_stack : list nat }.
(** mod.rs:451-456 *)
Definition ih_new (root : string) : idhelper := mkIH root [0].
(** mod.rs:461-464, the id of the current position *)
Definition ih_current (h : idhelper) : string := fold_left (fun s i => (s ++ ".t" ++ dec (i + 1))%string) (ih_stack h) (ih_root h).
Fixpoint incr_last (l : list nat) : outcome (list nat) :=
  match l with [] => RPanic | [i] => ROk [S i] | i :: r => do r' <- incr_last r ; ROk (i :: r') end.
(** mod.rs:458-467 *)
Definition ih_next (h : idhelper) : outcome (string * idhelper) :=
  do l <- incr_last (ih_stack h) ; ROk (ih_current h, mkIH (ih_root h) l).
(** mod.rs:469-471 *)
Definition ih_push (h : idhelper) : idhelper := mkIH (ih_root h) (ih_stack h ++ [0]).
(** mod.rs:473-476 *)
Definition ih_pop (h : idhelper) : outcome idhelper :=
  if Nat.leb 2 (List.length (ih_stack h)) then ROk (mkIH (ih_root h) (removelast (ih_stack h))) else RPanic.

(** How the elaborator uses it: a new step takes the next id; a new subproof (polyeq.rs:332-347) opens a scope, adds steps, closes the scope and takes the
    next id for its last step. *)
Inductive item : Type := One | Sub (p : list item).
Inductive idop : Type := Next | Push | Pop.
Fixpoint item_ops (x : item) : list idop :=
  match x with One => [Next] | Sub p => Push :: flat_map item_ops p ++ [Pop; Next] end.
Definition ops (p : list item) : list idop := flat_map item_ops p.
Fixpoint run_ops (l : list idop) (h : idhelper) : outcome (list string * idhelper) :=
  match l with
  | [] => ROk ([], h)
  | Next :: r => do x <- ih_next h ; do y <- run_ops r (snd x) ; ROk (fst x :: fst y, snd y)
  | Push :: r => run_ops r (ih_push h)
  | Pop :: r => do h' <- ih_pop h ; run_ops r h'
  end.
(** the ids given to the steps that replace the step [root] *)
Definition new_ids (root : string) (p : list item) : outcome (list string) :=
  do x <- run_ops (ops p) (ih_new root) ; ROk (fst x).

(** ** Specification *)
Definition begins (pre s : string) : Prop := exists r, s = (pre ++ r)%string.
(** no id is another one followed by .t and something *)
Definition independent (ids : list string) : Prop := forall r v, In r ids -> In v ids -> ~ begins (r ++ ".t")%string v.

(** ** The ids, by recursion *)
Section Item_ind.
  Variable P : item -> Prop.
  Hypothesis HOne : P One.
  Hypothesis HSub : forall p, Forall P p -> P (Sub p).
  Fixpoint item_ind' (x : item) : P x :=
    match x with
    | One => HOne
    | Sub p => HSub p ((fix go (l : list item) : Forall P l := match l with [] => Forall_nil _ | y :: r => Forall_cons _ (item_ind' y) (go r) end) p)
    end.
End Item_ind.
Definition pos (base : string) (i : nat) : string := (base ++ ".t" ++ dec (i + 1))%string.
Fixpoint item_ids (base : string) (i : nat) (x : item) : list string :=
  match x with
  | One => [pos base i]
  | Sub p => (fix go (l : list item) (j : nat) : list string := match l with [] => [] | y :: r => item_ids (pos base i) j y ++ go r (S j) end) p 0 ++ [pos base i]
  end.
Fixpoint items_ids (base : string) (i : nat) (l : list item) : list string :=
  match l with [] => [] | y :: r => item_ids base i y ++ items_ids base (S i) r end.
Lemma item_ids_sub base i p : item_ids base i (Sub p) = items_ids (pos base i) 0 p ++ [pos base i].
Proof.
  cbn [item_ids]. f_equal. generalize 0. induction p as [|y r IH]; intros j; [reflexivity|]. cbn [items_ids]. rewrite IH. reflexivity.
Qed.

Lemma incr_last_app l i : incr_last (l ++ [i]) = ROk (l ++ [S i]).
Proof.
  induction l as [|a r IH]; [reflexivity|]. destruct r as [|b r]; [reflexivity|].
  change (incr_last ((a :: b :: r) ++ [i])) with (do r' <- incr_last ((b :: r) ++ [i]) ; ROk (a :: r')). rewrite IH. reflexivity.
Qed.
Lemma run_ops_app a : forall b h, run_ops (a ++ b) h = do x <- run_ops a h ; do y <- run_ops b (snd x) ; ROk (fst x ++ fst y, snd y).
Proof.
  induction a as [|o a IH]; intros b h; cbn [Datatypes.app run_ops obind fst snd].
  - destruct (run_ops b h) as [[l h']| |]; reflexivity.
  - destruct o.
    + destruct (ih_next h) as [[s h1]| |]; cbn [obind fst snd]; try reflexivity. rewrite IH.
      destruct (run_ops a h1) as [[l h2]| |]; cbn [obind fst snd]; try reflexivity.
      destruct (run_ops b h2) as [[l' h3]| |]; reflexivity.
    + apply IH.
    + destruct (ih_pop h) as [h1| |]; cbn [obind]; try reflexivity. apply IH.
Qed.
Lemma current_app root st i : ih_current (mkIH root (st ++ [i])) = pos (ih_current (mkIH root st)) i.
Proof. unfold ih_current. cbn [ih_stack ih_root]. rewrite fold_left_app. reflexivity. Qed.
Lemma next_app root st i : ih_next (mkIH root (st ++ [i])) = ROk (pos (ih_current (mkIH root st)) i, mkIH root (st ++ [S i])).
Proof. unfold ih_next. cbn [ih_stack]. rewrite incr_last_app. cbn [obind]. rewrite current_app. reflexivity. Qed.
Lemma items_run p : Forall (fun x => forall root st i, run_ops (item_ops x) (mkIH root (st ++ [i])) = ROk (item_ids (ih_current (mkIH root st)) i x, mkIH root (st ++ [S i]))) p ->
  forall root st i, run_ops (ops p) (mkIH root (st ++ [i])) = ROk (items_ids (ih_current (mkIH root st)) i p, mkIH root (st ++ [i + List.length p])).
Proof.
  induction 1 as [|x r Hx _ IH]; intros root st i; cbn [List.length].
  - cbn. rewrite Nat.add_0_r. reflexivity.
  - unfold ops. cbn [flat_map]. rewrite run_ops_app, Hx. cbn [obind fst snd]. unfold ops in IH. rewrite IH. cbn [obind fst snd items_ids].
    replace (S i + List.length r) with (i + S (List.length r)) by lia. reflexivity.
Qed.
Lemma item_run x : forall root st i, run_ops (item_ops x) (mkIH root (st ++ [i])) = ROk (item_ids (ih_current (mkIH root st)) i x, mkIH root (st ++ [S i])).
Proof.
  induction x as [|p IH] using item_ind'; intros root st i.
  - cbn [item_ops run_ops]. rewrite next_app. reflexivity.
  - cbn [item_ops run_ops]. unfold ih_push. cbn [ih_root ih_stack]. rewrite run_ops_app.
    pose proof (items_run p IH root (st ++ [i]) 0) as H. unfold ops in H. rewrite H. cbn [obind fst snd run_ops]. unfold ih_pop. cbn [ih_stack ih_root].
    rewrite app_length, app_length. cbn [List.length]. replace (Nat.leb 2 (List.length st + 1 + 1)) with true by (symmetry; apply Nat.leb_le; lia).
    cbn [obind]. rewrite removelast_last, next_app. cbn [obind fst snd]. rewrite item_ids_sub, current_app. reflexivity.
Qed.
Lemma new_ids_eq root p : new_ids root p = ROk (items_ids root 0 p).
Proof.
  unfold new_ids, ih_new. change [0] with ([] ++ [0]). rewrite items_run; [reflexivity|]. apply Forall_forall. intros x _. apply item_run.
Qed.

(** ** Distinctness *)
Definition digit (a : ascii) : bool := let n := nat_of_ascii a in Nat.leb 48 n && Nat.leb n 57.
Fixpoint all_digits (s : string) : bool := match s with EmptyString => true | String a r => digit a && all_digits r end.
Definition dot_or_end (s : string) : Prop := match s with EmptyString => True | String a _ => a = "."%char end.
Lemma digits_split a : forall b s s', all_digits a = true -> all_digits b = true -> dot_or_end s -> dot_or_end s' -> (a ++ s)%string = (b ++ s')%string -> a = b /\ s = s'.
Proof.
  induction a as [|x a IH]; intros b s s' Ha Hb Hs Hs' E; cbn [append] in E.
  - destruct b as [|y b]; [auto|]. cbn [append] in E. subst s. cbn in Hs, Hb. subst y. discriminate Hb.
  - destruct b as [|y b]; cbn [append] in E.
    + subst s'. cbn in Hs', Ha. subst x. discriminate Ha.
    + injection E as -> E. cbn in Ha, Hb. apply andb_prop in Ha, Hb. destruct (IH b s s') as [-> ->]; tauto.
Qed.
Lemma uint_digits d : all_digits (NilEmpty.string_of_uint d) = true.
Proof. induction d; cbn; auto. Qed.
Lemma dec_digits n : all_digits (dec n) = true.
Proof. apply uint_digits. Qed.
Lemma dec_inj n m : dec n = dec m -> n = m.
Proof.
  unfold dec. intros E. apply Unsigned.to_uint_inj.
  assert (H : NilEmpty.uint_of_string (NilEmpty.string_of_uint (Nat.to_uint n)) = NilEmpty.uint_of_string (NilEmpty.string_of_uint (Nat.to_uint m))) by (rewrite E; reflexivity).
  rewrite !NilEmpty.usu in H. injection H as H. exact H.
Qed.
Lemma append_assoc a b c : ((a ++ b) ++ c)%string = (a ++ b ++ c)%string.
Proof. induction a as [|x a IH]; cbn; [reflexivity|]. rewrite IH. reflexivity. Qed.
Lemma append_nil a : (a ++ "")%string = a.
Proof. induction a as [|x a IH]; cbn; [reflexivity|]. rewrite IH. reflexivity. Qed.
Lemma append_cancel a b c : (a ++ b)%string = (a ++ c)%string -> b = c.
Proof. induction a as [|x a IH]; cbn; intros E; [exact E|]. injection E as E. auto. Qed.
Lemma append_split a : forall b s s', (a ++ s)%string = (b ++ s')%string -> (exists r, b = (a ++ r)%string /\ s = (r ++ s')%string) \/ (exists r, a = (b ++ r)%string /\ s' = (r ++ s)%string).
Proof.
  induction a as [|x a IH]; intros b s s' E; cbn [append] in E.
  - left. exists b. auto.
  - destruct b as [|y b]; cbn [append] in E.
    + right. exists (String x a). auto.
    + injection E as -> E. destruct (IH b s s' E) as [(r & -> & ->)|(r & -> & ->)]; [left|right]; exists r; auto.
Qed.
(** every generated id is the position followed by nothing or by .t and something *)
Lemma item_ids_shape x : forall base i v, In v (item_ids base i x) -> exists s, v = (pos base i ++ s)%string /\ (s = ""%string \/ begins ".t" s).
Proof.
  induction x as [|p IH] using item_ind'; intros base i v H.
  - destruct H as [<-|[]]. exists ""%string. rewrite append_nil. auto.
  - rewrite item_ids_sub in H. apply in_app_or in H. destruct H as [H|[<-|[]]]; [|exists ""%string; rewrite append_nil; auto].
    assert (G : forall j, In v (items_ids (pos base i) j p) -> exists k s, v = (pos (pos base i) k ++ s)%string).
    { clear H. induction IH as [|y r Hy _ IH']; intros j H; [destruct H|]. cbn [items_ids] in H. apply in_app_or in H. destruct H as [H|H]; [|eauto].
      destruct (Hy _ _ _ H) as (s & -> & _). eauto. }
    destruct (G 0 H) as (k & s & ->). exists (".t" ++ dec (k + 1) ++ s)%string. split; [|right; exists (dec (k + 1) ++ s)%string; reflexivity].
    unfold pos. rewrite !append_assoc. reflexivity.
Qed.
Lemma items_ids_shape base l : forall i v, In v (items_ids base i l) -> exists j s, i <= j /\ v = (pos base j ++ s)%string /\ (s = ""%string \/ begins ".t" s).
Proof.
  induction l as [|y r IH]; intros i v H; [destruct H|]. cbn [items_ids] in H. apply in_app_or in H. destruct H as [H|H].
  - destruct (item_ids_shape _ _ _ _ H) as (s & E & Hs). exists i, s. auto.
  - destruct (IH _ _ H) as (j & s & Hj & E & Hs). exists j, s. split; [lia|auto].
Qed.
Lemma tail_dot s : s = ""%string \/ begins ".t" s -> dot_or_end s.
Proof. intros [->|[r ->]]; cbn; auto. Qed.
Lemma pos_inj base i j s s' : dot_or_end s -> dot_or_end s' -> (pos base i ++ s)%string = (pos base j ++ s')%string -> i = j /\ s = s'.
Proof.
  unfold pos. rewrite !append_assoc. intros Hs Hs' E. apply append_cancel in E. apply append_cancel in E.
  destruct (digits_split (dec (i + 1)) (dec (j + 1)) s s') as [E1 E2]; auto using dec_digits. apply dec_inj in E1. split; [lia|exact E2].
Qed.
Lemma nodup_app {A} (a b : list A) : NoDup a -> NoDup b -> (forall x, In x a -> In x b -> False) -> NoDup (a ++ b).
Proof.
  induction a as [|x a IH]; intros Ha Hb H; [exact Hb|]. inversion Ha; subst. cbn. constructor.
  - intros Hi. apply in_app_or in Hi. destruct Hi as [Hi|Hi]; [contradiction|]. apply (H x); [left; reflexivity|exact Hi].
  - apply IH; auto. intros y Hy. apply H. right. exact Hy.
Qed.
Lemma items_nodup base l : Forall (fun x => forall b i, NoDup (item_ids b i x)) l -> forall i, NoDup (items_ids base i l).
Proof.
  induction 1 as [|y r Hy Hr IH]; intros i; cbn [items_ids]; [constructor|]. apply nodup_app; auto.
  intros v H1 H2. destruct (item_ids_shape _ _ _ _ H1) as (s & -> & Hs). destruct (items_ids_shape _ _ _ _ H2) as (j & s' & Hj & E & Hs').
  apply pos_inj in E; auto using tail_dot. lia.
Qed.
Lemma item_nodup x : forall base i, NoDup (item_ids base i x).
Proof.
  induction x as [|p IH] using item_ind'; intros base i.
  - constructor; [intros []|constructor].
  - rewrite item_ids_sub. apply nodup_app.
    + apply items_nodup. exact IH.
    + constructor; [intros []|constructor].
    + intros v H [<-|[]]. destruct (items_ids_shape _ _ _ _ H) as (j & s & _ & E & _). unfold pos in E at 2. rewrite append_assoc in E.
      rewrite <- (append_nil (pos base i)) in E at 1. apply append_cancel in E. discriminate E.
Qed.
Lemma new_ids_nodup root p ids : new_ids root p = ROk ids -> NoDup ids.
Proof. rewrite new_ids_eq. intros [= <-]. apply items_nodup. apply Forall_forall. intros x _. apply item_nodup. Qed.
Lemma new_ids_begin root p ids v : new_ids root p = ROk ids -> In v ids -> begins (root ++ ".t")%string v.
Proof.
  rewrite new_ids_eq. intros [= <-] H. destruct (items_ids_shape _ _ _ _ H) as (j & s & _ & -> & _). exists (dec (j + 1) ++ s)%string.
  unfold pos. rewrite !append_assoc. reflexivity.
Qed.

(** all ids after a pass *)
Definition pass_ids (p : string -> list item) (ids : list string) : list string := ids ++ flat_map (fun r => items_ids r 0 (p r)) ids.
Lemma begins_split r r' s s' : begins ".t" s -> begins ".t" s' -> (r ++ s)%string = (r' ++ s')%string -> r = r' \/ begins (r ++ ".t") r' \/ begins (r' ++ ".t") r.
Proof.
  intros Hs Hs' E. destruct (append_split r r' s s' E) as [(q & E1 & E2)|(q & E1 & E2)].
  - destruct q as [|a [|b q]].
    + left. rewrite append_nil in E1. auto.
    + exfalso. destruct Hs as [u ->], Hs' as [w ->]. cbn in E2. injection E2 as _ E2 _. discriminate.
    + right. left. destruct Hs as [u ->]. cbn in E2. injection E2 as <- <- _. exists q. rewrite E1, append_assoc. reflexivity.
  - destruct q as [|a [|b q]].
    + left. rewrite append_nil in E1. auto.
    + exfalso. destruct Hs as [u ->], Hs' as [w ->]. cbn in E2. injection E2 as _ E2 _. discriminate.
    + right. right. destruct Hs' as [u ->]. cbn in E2. injection E2 as <- <- _. exists q. rewrite E1, append_assoc. reflexivity.
Qed.
Lemma items_tail base l i v : In v (items_ids base i l) -> exists s, v = (base ++ s)%string /\ begins ".t" s.
Proof.
  intros H. destruct (items_ids_shape _ _ _ _ H) as (j & s & _ & -> & _). exists (".t" ++ dec (j + 1) ++ s)%string.
  split; [unfold pos; rewrite !append_assoc; reflexivity|]. exists (dec (j + 1) ++ s)%string. reflexivity.
Qed.
Lemma pass_nodup p ids : NoDup ids -> independent ids -> NoDup (pass_ids p ids).
Proof.
  intros Hd Hi. unfold pass_ids. apply nodup_app; [exact Hd| |].
  - assert (G : forall l, NoDup l -> (forall r, In r l -> In r ids) -> NoDup (flat_map (fun r => items_ids r 0 (p r)) l)).
    { induction 1 as [|r l Hr Hl IH]; intros Hin; cbn [flat_map]; [constructor|]. apply nodup_app.
      - apply items_nodup. apply Forall_forall. intros x _. apply item_nodup.
      - apply IH. intros r' H. apply Hin. right. exact H.
      - intros v H1 H2. apply in_flat_map in H2. destruct H2 as (r' & H2 & H3). destruct (items_tail _ _ _ _ H1) as (s & -> & Hs). destruct (items_tail _ _ _ _ H3) as (s' & E & Hs').
        assert (In r ids) by (apply Hin; left; reflexivity). assert (In r' ids) by (apply Hin; right; exact H2).
        destruct (begins_split _ _ _ _ Hs Hs' E) as [->|[B|B]]; [contradiction| |]; eapply Hi; [| |exact B| | |exact B]; assumption. }
    apply G; auto.
  - intros v H1 H2. apply in_flat_map in H2. destruct H2 as (r & H2 & H3). destruct (items_tail _ _ _ _ H3) as (s & -> & [u ->]).
    apply (Hi r _ H2 H1). exists u. rewrite append_assoc. reflexivity.
Qed.
