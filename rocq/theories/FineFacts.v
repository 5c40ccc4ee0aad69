(** Facts about the pool at the grain of single file operations. *)
From Verif Require Export Fine FsFacts RunFacts TreeFacts.
From Coq Require Import Lia.

(** Specification side: joining equal observations gives that observation *)
Definition grain_ok (gr : grain) : Prop := forall v k, gr_join gr (repeat v (S k)) = v.

(** The program executed without interruption *)
Fixpoint alone {A} (g : fs) (p : prog A) : fs * outcome A :=
  match p with
  | FRet o => (g, o)
  | FRead l k => alone g (k (g l))
  | FPut l c k => alone (put l c g) k
  end.

Lemma alone_bind {A B} (p : prog A) (k : A -> prog B) : forall g,
  alone g (bind p k) = match alone g p with
                       | (g', Done a) => alone g' (k a)
                       | (g', Panics) => (g', Panics)
                       | (g', Diverges) => (g', Diverges)
                       end.
Proof. induction p as [[a| |]|l r IH|l c q IH]; intros g; cbn [bind alone]; auto. Qed.

Lemma alone_observe (g : fs) l : forall m seen, alone g (observe m l seen) = (g, Done (seen ++ repeat (g l) (S m))).
Proof.
  induction m as [|m IH]; intros seen; cbn [observe alone]; auto.
  rewrite IH, <- app_assoc. auto.
Qed.

Section Alone.
Variables (gr : grain) (Gr : grain_ok gr) (e : env).

Lemma alone_read g path : alone g (read_prog gr e path) = (g, Done (read_file e g path)).
Proof.
  unfold read_prog. rewrite alone_bind, alone_observe. cbn [app alone]. rewrite Gr. reflexivity.
Qed.

Lemma alone_puts (l : string) o : forall cs g, exists h, alone g (fold_right (fun x (k : prog (option string)) => FPut l x k) (FRet (Done o)) cs) = (h, Done o) /\
  forall l', h l' = if String.eqb l' l then last (List.map (fun c => Ok c) cs) (g l) else g l'.
Proof.
  induction cs as [|x cs IH]; intros g; cbn [fold_right alone List.map].
  - exists g. split; auto. intros l'. cbn. destruct (String.eqb l' l) eqn:E; auto. apply String.eqb_eq in E. subst. auto.
  - destruct (IH (put l x g)) as (h & E & Hh). exists h. split; auto. intros l'. rewrite Hh.
    destruct (String.eqb l' l) eqn:El; [|unfold put; rewrite El; auto].
    unfold put at 1. rewrite String.eqb_refl. destruct cs; auto. cbn [List.map].
    cbn. clear. revert s. induction cs as [|z cs IH]; intros s; cbn; auto.
Qed.

Lemma alone_write g path c : exists h, alone g (write_prog gr e path c) = (h, Done (snd (write_file e g path c))) /\
  forall l, h l = fst (write_file e g path c) l.
Proof.
  unfold write_prog, write_file, put_prog. destruct (env_write e path) as [|err|err part].
  - destruct (alone_puts (env_locate e path) None (gr_chunks gr (env_locate e path) c ++ [c]) g) as (h & E & H).
    exists h. split; auto. intros l. rewrite H, map_app. cbn [List.map]. rewrite last_last. reflexivity.
  - exists g. auto.
  - destruct (alone_puts (env_locate e path) (Some err) (gr_chunks gr (env_locate e path) part ++ [part]) g) as (h & E & H).
    exists h. split; auto. intros l. rewrite H, map_app. cbn [List.map]. rewrite last_last. reflexivity.
Qed.

Lemma alone_loop g c (rec : pwalker) (wk : walker) file :
  (forall t o im ms, alone g (rec t o im ms) = (g, wk t o im ms)) ->
  forall ls n im ms, alone g (import_loop gr rec e c file n ls im ms) = (g, imp_loop wk e g c file n ls im ms).
Proof.
  intros H. induction ls as [|line ls IH]; intros n im ms; cbn [import_loop imp_loop]; auto.
  destruct (is_empty line || is_empty (trim line)); auto.
  destruct (negb (starts_with import_start line)); [destruct (starts_with "#" line); auto|].
  cbn zeta. destruct (import_target c line (path_pop file)) as [t|]; auto.
  rewrite alone_bind, alone_read. destruct (read_file e g t) as [o|m]; auto.
  rewrite alone_bind, H. destruct (wk t o im ms) as [[im' ms']| |]; auto.
Qed.
Lemma alone_imports g c : forall k file contents im ms,
  alone g (imports_prog gr k e c file contents im ms) = (g, add_imports k e g c file contents im ms).
Proof.
  induction k as [|k IH]; intros file contents im ms; auto.
  rewrite add_imports_S. cbn [imports_prog]. apply alone_loop. auto.
Qed.

(** [f] and [g] hold the same contents everywhere *)
Definition same_fs (f g : fs) : Prop := forall l, f l = g l.

Definition matches {A} (g : fs) (x : fs * outcome A) (o : outcome (fs * A)) : Prop :=
  match o with
  | Done (f', r) => snd x = Done r /\ same_fs (fst x) f'
  | Panics => snd x = Panics /\ fst x = g
  | Diverges => snd x = Diverges /\ fst x = g
  end.

Lemma alone_compile fuel c s g path : matches g (alone g (compile_prog gr fuel e c s path)) (compile_file fuel e g c s path).
Proof.
  unfold compile_prog, compile_file. rewrite alone_bind, alone_read.
  destruct (read_file e g path) as [contents|m]; [|split; [auto|intros l; auto]].
  destruct (parse_file e contents path) as [d|m]; [|split; [auto|intros l; auto]].
  rewrite alone_bind, alone_imports.
  destruct (add_imports fuel e g c path contents [] []) as [[im ms]| |]; [|split; auto|split; auto].
  cbn [fst snd]. destruct (parse_foreign e path im ms) as [frags ms1].
  destruct (compile_definition _ _ d) as [[ws [op|errs]]|]; [|split; [auto|intros l; auto]|split; auto].
  destruct (compile_ir _ _ _ op) as [co|te]; [|split; [auto|intros l; auto]].
  rewrite alone_bind. destruct (alone_write g (with_extension path "graphql.d.ts") (co_contents co)) as (h & -> & Hh).
  destruct (write_file e g _ _) as [f1 [err|]]; cbn [fst snd alone] in *; split; auto.
Qed.

(** One item *)
Definition imatches (g : fs) (x : fs * outcome (list work * report)) (o : outcome (fs * list work * report)) : Prop :=
  match o with
  | Done (f', ch, r) => snd x = Done (ch, r) /\ same_fs (fst x) f'
  | Panics => snd x = Panics /\ fst x = g
  | Diverges => snd x = Diverges /\ fst x = g
  end.
Lemma alone_item fuel ls c s g x : imatches g (alone g (item_prog gr fuel e ls c s x)) (run_work fuel e ls c s x g).
Proof.
  destruct x as [path|d]; cbn [item_prog run_work].
  - rewrite alone_bind. pose proof (alone_compile fuel c s g path) as H.
    destruct (alone g (compile_prog gr fuel e c s path)) as [h o].
    destruct (compile_file fuel e g c s path) as [[f' [r|ms]]| |]; destruct H as [E H]; cbn [fst snd] in E; rewrite E; split; auto.
  - destruct (run_dir_entry ls d); split; auto; intros l; auto.
Qed.

(** *** Locations touched, with reads answered from [f0] *)
Fixpoint touches {A} (f0 : fs) (Rd Wr : string -> Prop) (p : prog A) : Prop :=
  match p with
  | FRet _ => True
  | FRead l k => Rd l /\ touches f0 Rd Wr (k (f0 l))
  | FPut l _ k => Wr l /\ touches f0 Rd Wr k
  end.
Lemma touches_mono {A} f0 (Rd Rd' Wr Wr' : string -> Prop) (p : prog A) :
  (forall l, Rd l -> Rd' l) -> (forall l, Wr l -> Wr' l) -> touches f0 Rd Wr p -> touches f0 Rd' Wr' p.
Proof. intros H1 H2. induction p as [o|l r IH|l c q IH]; cbn; auto; intros [H T]; auto. Qed.

Lemma touches_bind {A B} f0 Rd Wr (p : prog A) (k : A -> prog B) :
  touches f0 Rd (fun _ => False) p -> (forall a, snd (alone f0 p) = Done a -> touches f0 Rd Wr (k a)) ->
  touches f0 Rd Wr (bind p k).
Proof.
  induction p as [[a| |]|l r IH|l c q IH]; cbn [touches bind alone snd]; auto.
  - intros [H T] K. split; auto.
  - intros [[] _].
Qed.

Lemma touches_seq {A B} f0 Rd Wr (p : prog A) (k : A -> prog B) :
  touches f0 Rd Wr p -> (forall a, touches f0 Rd Wr (k a)) -> touches f0 Rd Wr (bind p k).
Proof. induction p as [[a| |]|l r IH|l c q IH]; cbn [touches bind]; auto; intros [H T] K; auto. Qed.

Lemma touches_observe f0 (Rd Wr : string -> Prop) l : Rd l -> forall m seen, touches f0 Rd Wr (observe m l seen).
Proof. intros H. induction m as [|m IH]; intros seen; cbn [observe touches]; auto. Qed.
Lemma touches_read f0 (Rd Wr : string -> Prop) path : Rd (env_locate e path) -> touches f0 Rd Wr (read_prog gr e path).
Proof.
  intros H. unfold read_prog. apply touches_bind; [apply touches_observe; auto|].
  intros vs _. exact I.
Qed.
Lemma touches_write f0 (Rd Wr : string -> Prop) path c : Wr (env_locate e path) -> touches f0 Rd Wr (write_prog gr e path c).
Proof.
  intros H. unfold write_prog, put_prog.
  assert (K : forall o cs, touches f0 Rd Wr (fold_right (fun x (k : prog (option string)) => FPut (env_locate e path) x k) (FRet (Done o)) cs)).
  { induction cs as [|x cs IH]; cbn [fold_right touches]; auto. }
  destruct (env_write e path); auto. exact I.
Qed.

Lemma touches_loop f0 (Rd : string -> Prop) c (rec : pwalker) file : forall ls pre im ms,
  (forall n l t, import_in c file pre ls n l t -> Rd (env_locate e t) /\
     forall o im ms, f0 (env_locate e t) = Ok o -> touches f0 Rd (fun _ => False) (rec t o im ms)) ->
  touches f0 Rd (fun _ => False) (import_loop gr rec e c file (List.length pre) ls im ms).
Proof.
  induction ls as [|line ls IH]; intros pre im ms H; cbn [import_loop]; [exact I|].
  assert (L : S (List.length pre) = List.length (pre ++ [line])) by (rewrite app_length; cbn; lia).
  destruct (line_kinds c (path_pop file) line) as [K Le Nq Nu|K1 K2 K3 Nl|K1 K2 K3 Le U|q t K1 K2 K3 Le Q R Nu].
  - assert (N : touches f0 Rd (fun _ => False) (import_loop gr rec e c file (S (List.length pre)) ls im ms)).
    { rewrite L. apply IH. intros n l t I. apply (H n l t). apply import_in_skip; auto. }
    destruct K as [-> |(-> & -> & ->)]; auto.
  - rewrite K1, K2, K3. exact I.
  - rewrite K1, K2, K3. exact I.
  - rewrite K1, K2, K3. cbn zeta.
    assert (Ht : import_in c file pre (line :: ls) (List.length pre) line t).
    { eapply import_in_cons; eauto. }
    destruct (H _ _ _ Ht) as [Ef Er].
    assert (N : forall im ms, touches f0 Rd (fun _ => False) (import_loop gr rec e c file (S (List.length pre)) ls im ms)).
    { intros im' ms'. rewrite L. apply IH. intros n l t' I. apply (H n l t'). eapply import_in_cons; eauto. }
    apply touches_bind; [apply touches_read; auto|].
    intros r Hr. rewrite alone_read in Hr. cbn [snd] in Hr. injection Hr as <-.
    unfold read_file. destruct (f0 (env_locate e t)) as [o|err] eqn:Eo; auto.
    apply touches_bind; auto.
Qed.

Lemma touches_imports f0 c (Rd : string -> Prop) : forall k file contents im ms,
  (forall file' contents' n l t, importer e f0 c file contents file' contents' -> imports_at c file' contents' n l t ->
     Rd (env_locate e t)) ->
  touches f0 Rd (fun _ => False) (imports_prog gr k e c file contents im ms).
Proof.
  induction k as [|k IH]; intros file contents im ms H; [exact I|].
  cbn [imports_prog]. apply (touches_loop f0 Rd c _ file (lines contents) []).
  intros n l t I. apply import_in_nil in I. split.
  - eapply H; eauto. left. auto.
  - intros o im' ms' Eo. apply IH. intros file' contents' n' l' t' Im A. eapply H; eauto.
    assert (R1 : SpecImport.reach e f0 c file contents t o) by (eapply reach_one; eauto).
    destruct Im as [[-> ->]|R2]; [right; auto|]. right.
    clear - R1 R2. induction R2; eapply reach_more; eauto.
Qed.

Lemma touches_compile fuel f0 c s path :
  touches f0 (SpecFs.reads e f0 c path) (eq (out_loc e path)) (compile_prog gr fuel e c s path).
Proof.
  unfold compile_prog. apply touches_bind; [apply touches_read; constructor|].
  intros r Hr. rewrite alone_read in Hr. cbn [snd] in Hr. injection Hr as <-.
  unfold read_file. destruct (f0 (env_locate e path)) as [contents|err] eqn:Ec; [|exact I].
  destruct (parse_file e contents path) as [d|m]; [|exact I].
  apply touches_bind.
  { apply touches_imports. intros file' contents' n l t Im A. eapply reads_import; eauto. }
  intros [im ms] _. cbn [fst snd]. destruct (parse_foreign e path im ms) as [frags ms1].
  destruct (compile_definition _ _ d) as [[ws [op|errs]]|]; [|exact I|exact I].
  destruct (compile_ir _ _ _ op) as [co|te]; [|exact I].
  apply touches_seq; [|intros a; exact I]. apply touches_write. reflexivity.
Qed.

(** Where an item writes *)
Definition writes (x : work) (l : string) : Prop := match x with WFile p => l = out_loc e p | WDir _ => False end.
Definition ireads (f0 : fs) (c : cconfig) (x : work) (l : string) : Prop := match x with WFile p => SpecFs.reads e f0 c p l | WDir _ => False end.
Lemma touches_item fuel ls f0 c s x : touches f0 (ireads f0 c x) (writes x) (item_prog gr fuel e ls c s x).
Proof.
  destruct x as [path|d]; cbn [item_prog]; [|exact I].
  apply touches_seq; [|intros a; exact I].
  eapply touches_mono; [| |apply touches_compile]; cbn; auto.
Qed.
End Alone.

(** Executions that see the same contents do the same *)
Lemma alone_agree {A} (f0 : fs) (Rd Wr : string -> Prop) (p : prog A) : (forall l, Rd l -> ~ Wr l) ->
  forall g g', touches f0 Rd Wr p -> (forall l, Rd l -> g l = f0 l) -> (forall l, Rd l -> g' l = f0 l) ->
  snd (alone g p) = snd (alone g' p) /\
  (forall l, g l = g' l -> fst (alone g p) l = fst (alone g' p) l) /\
  (forall l, ~ Wr l -> fst (alone g p) l = g l).
Proof.
  intros Dj. induction p as [o|l k IH|l c k IH]; cbn [touches alone]; intros g g' T Hg Hg'.
  - auto.
  - destruct T as [Hl T]. rewrite (Hg l Hl), (Hg' l Hl). apply IH; auto.
  - destruct T as [Hl T].
    assert (N : forall h : fs, (forall l, Rd l -> h l = f0 l) -> forall l', Rd l' -> put l c h l' = f0 l').
    { intros h Hh l' R. unfold put. destruct (String.eqb l' l) eqn:E; auto. apply String.eqb_eq in E. subst.
      exfalso. eapply Dj; eauto. }
    destruct (IH _ _ T (N _ Hg) (N _ Hg')) as (E & E1 & E2). split; auto. split.
    + intros l' El. apply E1. unfold put. destruct (String.eqb l' l); auto.
    + intros l' Nl. rewrite E2 by auto. unfold put. destruct (String.eqb l' l) eqn:El; auto.
      apply String.eqb_eq in El. subst. contradiction.
Qed.

(** *** Steps of the pool and the external state *)
Section Ctl.
Context {W R : Type}.

Lemma with_ext_id (s : pool W fs R) : with_ext s (ps_ext s) = s.
Proof. destruct s. reflexivity. Qed.
Lemma with_ext_twice (s : pool W fs R) g h : with_ext (with_ext s g) h = with_ext s h.
Proof. reflexivity. Qed.

Lemma step_other (r r' : runner W fs R) n s g i :
  (forall w x, nth_error (ps_workers s) i = Some w -> wk_pc w <> PRun x) ->
  step r n (with_ext s g) i = with_ext (step r' n s i) g /\ ps_ext (step r' n s i) = ps_ext s.
Proof.
  intros H. unfold step. cbn [with_ext ps_aborted ps_workers]. destruct (ps_aborted s); [auto|].
  destruct (nth_error (ps_workers s) i) as [w|]; [|auto].
  specialize (H w). destruct w as [p a b l]. unfold wstep. cbn [with_ext ps_queue ps_nwait ps_nquit ps_ext wk_pc wk_waiting wk_quitting wk_log] in *.
  destruct p as [ |x|x|x|xs| | | |k| | | |k| | ]; try (split; reflexivity).
  - destruct (ps_queue s) as [|[x|] q]; split; reflexivity.
  - destruct (H x eq_refl eq_refl).
  - destruct xs; split; reflexivity.
  - destruct (k <? n); [split; reflexivity|]. destruct (Nat.eqb (ps_nquit s) n); split; reflexivity.
  - destruct (Nat.eqb (ps_nwait s) n); split; reflexivity.
  - destruct k; split; reflexivity.
Qed.

Lemma step_commit_ext (o : outcome (list W * R)) n s g i : step (commit o) n (with_ext s g) i = with_ext (step (commit o) n s i) g.
Proof.
  destruct (nth_error (ps_workers s) i) as [w|] eqn:E.
  2: { unfold step. cbn [with_ext ps_aborted ps_workers]. rewrite E. destruct (ps_aborted s); auto. }
  destruct (wk_pc w) eqn:Ep.
  all: try (apply step_other; intros w' x' E'; congruence).
  unfold step. cbn [with_ext ps_aborted ps_workers]. rewrite E. destruct (ps_aborted s); auto.
  unfold wstep. rewrite Ep. unfold commit. destruct o as [[ch r]| |]; reflexivity.
Qed.

(** The end of an item is a whole run of it *)
Lemma step_run (run : runner W fs R) n s i w x o :
  nth_error (ps_workers s) i = Some w -> wk_pc w = PRun x ->
  match run x (ps_ext s) with
  | Done (g', ch, r) => o = Done (ch, r) -> ps_aborted s = false -> step run n s i = with_ext (step (commit o) n s i) g'
  | Panics => o = Panics -> step run n s i = step (commit o) n s i
  | Diverges => o = Diverges -> step run n s i = step (commit o) n s i
  end.
Proof.
  intros E Ep. destruct (run x (ps_ext s)) as [[[g' ch] r]| |] eqn:Er; intros -> .
  - intros Ea. unfold step. rewrite E, Ea. unfold wstep. rewrite Ep, Er. reflexivity.
  - unfold step. rewrite E. destruct (ps_aborted s); auto. unfold wstep. rewrite Ep, Er. reflexivity.
  - unfold step. rewrite E. destruct (ps_aborted s); auto. unfold wstep. rewrite Ep, Er. reflexivity.
Qed.

(** Other workers are untouched *)
Lemma step_worker (run : runner W fs R) n s i j : j <> i -> nth_error (ps_workers (step run n s i)) j = nth_error (ps_workers s) j.
Proof.
  intros N. unfold step. destruct (ps_aborted s); auto. destruct (nth_error (ps_workers s) i) as [w|] eqn:E; auto.
  destruct (wstep run n w _ _ _ _) as [[[[[w' q'] nw'] nq'] g'] ab]. cbn [ps_workers].
  clear - N. generalize (ps_workers s). intros l. revert i j N.
  induction l as [|a l IH]; intros [|i] [|j] N; cbn; auto; try congruence.
Qed.
End Ctl.

(** *** Workers run items at different positions of the tree *)
Lemma NoDup_flat {A B} (h : A -> list B) l i j a b x : NoDup (flat_map h l) -> i <> j ->
  nth_error l i = Some a -> nth_error l j = Some b -> In x (h a) -> ~ In x (h b).
Proof.
  revert i j. induction l as [|c l IH]; intros i j N Ne Hi Hj Ia Ib; [destruct i; discriminate|].
  cbn [flat_map] in N.
  assert (D : forall y, In y (h c) -> ~ In y (flat_map h l)).
  { clear - N. induction (h c) as [|z t IH]; intros y I; [destruct I|]. cbn in N. inversion N; subst.
    destruct I as [->|I]; [intros J; apply H1, in_or_app; auto|]. apply IH; auto. }
  destruct i as [|i], j as [|j]; cbn in Hi, Hj; try congruence.
  - injection Hi as <-. apply (D x Ia). apply in_flat_map. exists b. split; auto. eapply nth_error_In; eauto.
  - injection Hj as <-. apply (D x Ib). apply in_flat_map. exists a. split; auto. eapply nth_error_In; eauto.
  - apply NoDup_app_r in N. eapply IH; [exact N| |eauto|eauto|eauto|eauto]. congruence.
Qed.
Lemma map_flat {A B C} (f : B -> C) (h : A -> list B) l : List.map f (flat_map h l) = flat_map (fun x => List.map f (h x)) l.
Proof. induction l as [|a l IH]; cbn; auto. rewrite map_app, IH. auto. Qed.

Section Hands.
  Context {W G R : Type}.
  Variable Weq : forall x y : W, {x = y} + {x <> y}.
  Variable run : runner W G R.
  Variable n : nat.
  Variable kids : W -> list W.
  Hypothesis run_kids : forall x g g' ch r, run x g = Done (g', ch, r) -> ch = kids x.

  Lemma running_positions root g sched i j wi wj x y :
    let s := steps run n (start n root g) sched in
    i <> j -> nth_error (ps_workers s) i = Some wi -> nth_error (ps_workers s) j = Some wj ->
    wk_pc wi = PRun x -> wk_pc wj = PRun y ->
    exists p q, node kids root p x /\ node kids root q y /\ p <> q.
  Proof.
    cbn zeta. intros Ne.
    set (ls := steps (lrun run) n (start n ([], root) g) sched).
    assert (Es : epool ls = steps run n (start n root g) sched).
    { unfold ls. rewrite epool_steps, epool_start. auto. }
    rewrite <- Es. cbn [epool ps_workers]. rewrite !nth_error_map.
    destruct (nth_error (ps_workers ls) i) as [li|] eqn:Ei; cbn [option_map]; [|discriminate].
    destruct (nth_error (ps_workers ls) j) as [lj|] eqn:Ej; cbn [option_map]; [|discriminate].
    intros E1 E2. injection E1 as <-. injection E2 as <-. cbn [eworker wk_pc].
    destruct (wk_pc li) as [ |a|a|a|a| | | |k| | | |k| | ] eqn:Pi; cbn [epc]; try discriminate.
    destruct (wk_pc lj) as [ |b|b|b|b| | | |k| | | |k| | ] eqn:Pj; cbn [epc]; try discriminate.
    intros Ex Ey. injection Ex as <-. injection Ey as <-.
    assert (Ha : accounted (LWeq Weq) ([], root) ls) by (apply accounted_steps, accounted_start).
    assert (Hlog : log_labelled ls).
    { apply log_labelled_steps. intros e I. unfold start, pool_log in I. cbn in I. exfalso. clear - I.
      induction n; cbn in I; auto. }
    destruct Ha as (lost & Hlost & Hc).
    pose proof (labels_distinct Weq ls Hlog root lost Hc) as ND.
    assert (Hp : positioned kids root ls).
    { apply positioned_steps; auto. intros px I. unfold start, hands, completed, pool_log in I. cbn in I.
      assert (X1 : flat_map wk_log (repeat (@fresh_worker (list nat * W) R) n) = []) by (clear; induction n; cbn; auto).
      assert (X2 : flat_map (fun w => hand (wk_pc w)) (repeat (@fresh_worker (list nat * W) R) n) = []) by (clear; induction n; cbn; auto).
      rewrite X1, X2 in I. cbn in I. destruct I as [<-|[]]. constructor. }
    assert (In_i : In a (hands ls)).
    { unfold hands. apply in_flat_map. exists li. split; [eapply nth_error_In; eauto|]. rewrite Pi. cbn. auto. }
    assert (In_j : In b (hands ls)).
    { unfold hands. apply in_flat_map. exists lj. split; [eapply nth_error_In; eauto|]. rewrite Pj. cbn. auto. }
    exists (fst a), (fst b). split; [|split].
    - apply Hp. rewrite !in_app_iff. auto.
    - apply Hp. rewrite !in_app_iff. auto.
    - unfold all_items in ND. rewrite !map_app in ND. apply NoDup_app_r in ND. apply NoDup_app_l in ND.
      unfold hands in ND. rewrite map_flat in ND.
      intros E. apply (NoDup_flat _ _ i j li lj (fst a) ND Ne Ei Ej).
      + rewrite Pi. cbn. auto.
      + rewrite Pj, E. cbn. auto.
  Qed.
End Hands.
