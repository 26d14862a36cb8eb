(** Reading a proof text whose names have been replaced throughout. *)
From Coq Require Import List Ascii String ZArith Bool Arith Lia.
From Verif Require Import Base Term Utils Rules Checker Parser CheckMono.
Import ListNotations.
Local Open Scope string_scope.
Local Open Scope list_scope.

(** the text with every name of a command, and every reference to one, replaced *)
Definition ren_raw (f : string -> string) (r : raw) : raw :=
  match r with
  | RwAssume id t => RwAssume (f id) t
  | RwStep id cl rule ps args ds => RwStep (f id) cl rule (map f ps) args (map f ds)
  | RwAnchor e args => RwAnchor (f e) args
  | RwDefine => RwDefine
  end.

Section Ren.
  Variable f : string -> string.
  Hypothesis Hinj : forall a b, f a = f b -> a = b.
  Hypothesis Hnil : f "" = "".
  (** needed for names given relative to the name of the step *)
  Hypothesis Habs : forall a b, f (absolute a b) = absolute (f a) (f b).
  Notation rn := (ren f (fun k => k)).
  Definition ren_frame (x : frame) : frame := mkFr (map rn (f_cmds x)) (f_args x) (f_ctx x) (f (f_end x)) (f_stepped x).
  Definition ren_scope (m : list (string * nat)) : list (string * nat) := map (fun p => (f (fst p), snd p)) m.
  Definition ren_ps (st : pstate) : pstate := mkPS (map ren_frame (ps_frames st)) (map ren_scope (ps_ids st)) (ps_next st).
  Lemma f_eqb a b : String.eqb (f a) (f b) = String.eqb a b.
  Proof. destruct (String.eqb a b) eqn:E; [apply String.eqb_eq in E; subst; apply String.eqb_refl|]. apply String.eqb_neq in E. apply String.eqb_neq. intros H. apply E, Hinj, H. Qed.
  Lemma ren_im_get m k : im_get String.eqb (ren_scope m) (f k) = im_get String.eqb m k.
  Proof. induction m as [|[a b] r IH]; [reflexivity|]. cbn. rewrite f_eqb. destruct (String.eqb k a); [reflexivity|]. exact IH. Qed.
  Lemma ren_im_insert m k v : im_insert String.eqb (ren_scope m) (f k) v = ren_scope (im_insert String.eqb m k v).
  Proof. induction m as [|[a b] r IH]; [reflexivity|]. cbn. rewrite f_eqb. destruct (String.eqb k a); [reflexivity|]. cbn. f_equal. exact IH. Qed.
  Lemma ren_hs_get s k : hs_get String.eqb (map ren_scope s) (f k) = hs_get String.eqb s k.
  Proof. induction s as [|m r IH]; [reflexivity|]. cbn [map hs_get]. rewrite ren_im_get, IH. reflexivity. Qed.
  Lemma ren_hs_get_depth s k : hs_get_depth String.eqb (map ren_scope s) (f k) = hs_get_depth String.eqb s k.
  Proof. induction s as [|m r IH]; [reflexivity|]. cbn [map hs_get_depth]. rewrite ren_im_get, IH, map_length. reflexivity. Qed.
  Lemma ren_hs_pop (s : list (list (string * nat))) : hs_pop (map ren_scope s) = do r <- hs_pop s ; ROk (map ren_scope r).
  Proof. destruct s as [|m [|m' r]]; reflexivity. Qed.
  Lemma ren_hs_insert s k v : hs_insert String.eqb (map ren_scope s) (f k) v = do r <- hs_insert String.eqb s k v ; ROk (map ren_scope r).
  Proof. destruct s as [|m r]; [reflexivity|]. cbn. rewrite ren_im_insert. reflexivity. Qed.
  Lemma ren_push x c : push_cmd (ren_frame x) (rn c) = ren_frame (push_cmd x c).
  Proof. unfold push_cmd, ren_frame. cbn. rewrite map_app. reflexivity. Qed.
  Lemma ren_is_step c : is_step (rn c) = is_step c.
  Proof. destruct c; reflexivity. Qed.
  Lemma ren_add id c st : add_command (f id) (rn c) (ren_ps st) = do r <- add_command id c st ; ROk (ren_ps r).
  Proof.
    unfold add_command. cbn [ren_ps ps_ids ps_frames ps_next]. rewrite ren_hs_get. destruct (hs_get String.eqb (ps_ids st) id); [reflexivity|].
    destruct (ps_frames st) as [|x out]; [reflexivity|]. cbn [map]. rewrite ren_push. cbn [ren_frame f_end f_cmds f_args f_ctx]. rewrite f_eqb. destruct (String.eqb (f_end x) id).
    - rewrite ren_hs_pop. destruct (hs_pop (ps_ids st)) as [ids| |]; cbn [obind]; auto. rewrite map_length, ren_is_step. destruct (rassert (Nat.leb 2 _)); cbn [obind]; auto. destruct (rassert (is_step c)); cbn [obind]; auto.
      destruct out as [|y out]; [reflexivity|]. cbn [map].
      change (CSub (map rn (f_cmds (push_cmd x c))) (f_args (push_cmd x c)) (f_ctx (push_cmd x c))) with (rn (CSub (f_cmds (push_cmd x c)) (f_args (push_cmd x c)) (f_ctx (push_cmd x c)))). rewrite ren_push.
      cbn [ren_frame f_cmds]. rewrite map_length, ren_hs_insert. destruct (hs_insert String.eqb ids id _); cbn [obind]; auto.
    - rewrite map_length, ren_hs_insert. destruct (hs_insert String.eqb (ps_ids st) id _); cbn [obind]; auto.
  Qed.
  Lemma ren_premises s l : omap (parse_premise (map ren_scope s)) (map f l) = omap (parse_premise s) l.
  Proof. induction l as [|x l IH]; [reflexivity|]. cbn [map omap]. unfold parse_premise at 1 3. rewrite ren_hs_get_depth, IH. reflexivity. Qed.
  Lemma ren_discharges s id l : omap (parse_discharge (map ren_scope s) (f id)) (map f l) = omap (parse_discharge s id) l.
  Proof. induction l as [|x l IH]; [reflexivity|]. cbn [map omap]. unfold parse_discharge at 1 3. rewrite <- Habs, !ren_hs_get_depth, IH. reflexivity. Qed.
  Lemma ren_parse_cmd st r : parse_cmd (ren_ps st) (ren_raw f r) = do x <- parse_cmd st r ; ROk (ren_ps x).
  Proof.
    destruct st as [fs ids n]. unfold parse_cmd. cbn [ren_ps ps_frames ps_ids ps_next]. destruct fs as [|x out]; [reflexivity|]. cbn [map].
    destruct r as [id t|id cl rule ps args ds|e args|]; cbn [ren_raw].
    - cbn [ren_frame f_stepped List.length]. rewrite map_length. destruct (_ && _); [reflexivity|]. apply (ren_add id (CAssume id t) (mkPS (x :: out) ids n)).
    - rewrite ren_premises. destruct (omap (parse_premise ids) ps) as [ps'| |]; cbn [obind]; auto. rewrite ren_discharges. destruct (omap (parse_discharge ids id) ds) as [ds'| |]; cbn [obind]; auto.
      apply (ren_add id (CStep (mkStep id cl rule ps' args ds')) (mkPS (set_stepped x :: out) ids n)).
    - reflexivity.
    - reflexivity.
  Qed.
  Lemma ren_parse_cmds rs : forall st, parse_cmds (ren_ps st) (map (ren_raw f) rs) = do x <- parse_cmds st rs ; ROk (ren_ps x).
  Proof. induction rs as [|r rs IH]; intros st; [reflexivity|]. cbn [map parse_cmds]. rewrite ren_parse_cmd. destruct (parse_cmd st r); cbn [obind]; auto. Qed.
  Theorem ren_parse rs : parse_proof (map (ren_raw f) rs) = do p <- parse_proof rs ; ROk (map rn p).
  Proof.
    unfold parse_proof. replace ps0 with (ren_ps ps0) at 1 by (unfold ren_ps, ps0, ren_frame; cbn; rewrite Hnil; reflexivity).
    rewrite ren_parse_cmds. destruct (parse_cmds ps0 rs) as [st| |]; cbn [obind]; auto. cbn [ren_ps ps_frames]. destruct (ps_frames st) as [|x [|y r]]; reflexivity.
  Qed.
End Ren.

(** renaming character by character, keeping the dot *)
Fixpoint on_chars (g : Ascii.ascii -> Ascii.ascii) (s : string) : string :=
  match s with EmptyString => EmptyString | String c r => String (g c) (on_chars g r) end.
Lemma on_chars_app g a b : on_chars g (a ++ b)%string = (on_chars g a ++ on_chars g b)%string.
Proof. induction a as [|c a IH]; cbn; [reflexivity|]. rewrite IH. reflexivity. Qed.
Lemma on_chars_inj g : (forall x y, g x = g y -> x = y) -> forall a b, on_chars g a = on_chars g b -> a = b.
Proof. intros Hg. induction a as [|c a IH]; intros [|d b] H; cbn in H; try discriminate; [reflexivity|]. injection H as H1 H2. f_equal; auto. Qed.
Lemma on_chars_abs g : g "."%char = "."%char -> forall a b, on_chars g (absolute a b) = absolute (on_chars g a) (on_chars g b).
Proof. intros Hg a b. unfold absolute. rewrite !on_chars_app. cbn. rewrite Hg. reflexivity. Qed.
