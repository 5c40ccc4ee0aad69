(** More about the pool of single file operations: whole items are covered, one worker, completeness. *)
From Verif Require Export FineSim.
From Coq Require Import Lia.

Lemma same_refl f : same_fs f f. Proof. intros l; auto. Qed.
Lemma same_sym f g : same_fs f g -> same_fs g f. Proof. intros H l; auto. Qed.
Lemma same_trans f g h : same_fs f g -> same_fs g h -> same_fs f h. Proof. intros H K l. rewrite H. auto. Qed.

Lemma alone_same {A} (p : prog A) : forall g g', same_fs g g' ->
  snd (alone g p) = snd (alone g' p) /\ same_fs (fst (alone g p)) (fst (alone g' p)).
Proof.
  induction p as [o|l k IH|l c k IH]; cbn [alone]; intros g g' H; auto.
  - rewrite (H l). apply IH. auto.
  - apply IH. intros l'. unfold put. destruct (String.eqb l' l); auto.
Qed.

Section More.
Variables (gr : grain) (fuel : nat) (e : env) (ls : listing) (c : cconfig) (s : schema) (n : nat) (root : string) (f : fs).
Hypothesis Gr : grain_ok gr.
Notation run := (run_work fuel e ls c s).
Notation prg := (item_prog gr fuel e ls c s).
Notation final sched := (steps run n (start n (WDir root) f) sched).
Notation ffinal sched := (fsteps prg n (fstart n (WDir root) f) sched).

Lemma fsteps_app st a b : fsteps prg n st (a ++ b) = fsteps prg n (fsteps prg n st a) b.
Proof. apply fold_left_app. Qed.

(** *** One worker takes all operations of its item in a row *)
Lemma run_through i w x : forall p st,
  ps_aborted (fp_pool st) = false -> nth_error (ps_workers (fp_pool st)) i = Some w -> wk_pc w = PRun x ->
  fp_progs st i = Some p -> exists k st', fsteps prg n st (repeat i k) = st' /\
    fp_pool st' = with_ext (fp_pool st) (fst (alone (ps_ext (fp_pool st)) p)) /\
    fp_progs st' i = Some (FRet (snd (alone (ps_ext (fp_pool st)) p))) /\ forall j, j <> i -> fp_progs st' j = fp_progs st j.
Proof.
  induction p as [o|l k IH|l v k IH]; intros st Ab E P Hp; cbn [alone].
  - exists 0, st. cbn [repeat fsteps fold_left fst snd]. rewrite with_ext_id. auto.
  - specialize (IH (ps_ext (fp_pool st) l) {| fp_pool := fp_pool st; fp_progs := set_prog (fp_progs st) i (Some (k (ps_ext (fp_pool st) l))) |} Ab E P).
    cbn [fp_pool fp_progs] in IH. rewrite set_same in IH. destruct (IH eq_refl) as (m & st' & E1 & E2 & E3 & E4).
    exists (S m), st'. split; [|split; [auto|split; [auto|]]].
    + rewrite <- E1. cbn [repeat fsteps fold_left]. unfold fstep at 2. rewrite Ab, E, P, Hp. reflexivity.
    + intros j Ne. rewrite E4, set_else by auto. auto.
  - specialize (IH {| fp_pool := with_ext (fp_pool st) (put l v (ps_ext (fp_pool st))); fp_progs := set_prog (fp_progs st) i (Some k) |} Ab E P).
    cbn [fp_pool fp_progs with_ext ps_ext] in IH. rewrite set_same in IH. destruct (IH eq_refl) as (m & st' & E1 & E2 & E3 & E4).
    exists (S m), st'. split; [|split; [|split; [auto|]]].
    + rewrite <- E1. cbn [repeat fsteps fold_left]. unfold fstep at 2. rewrite Ab, E, P, Hp. reflexivity.
    + rewrite E2. reflexivity.
    + intros j Ne. rewrite E4, set_else by auto. auto.
Qed.

(** The state between items *)
Definition idle_like (st : fpool work report) (C : pool work fs report) : Prop :=
  fp_pool st = with_ext C (ps_ext (fp_pool st)) /\ same_fs (ps_ext (fp_pool st)) (ps_ext C) /\
  forall i, fp_progs st i = None.

Lemma commit_like i w x C g o : nth_error (ps_workers C) i = Some w -> wk_pc w = PRun x -> ps_aborted C = false ->
  o = snd (alone (ps_ext C) (prg x)) -> same_fs g (fst (alone (ps_ext C) (prg x))) ->
  exists g', step run n C i = with_ext (step (commit o) n C i) g' /\ same_fs g g'.
Proof.
  intros E P Ab Eo Sg. pose proof (alone_item gr Gr e fuel ls c s (ps_ext C) x) as Mi.
  pose proof (step_run run n C i w x o E P) as Sr.
  destruct (run x (ps_ext C)) as [[[g' ch] r]| |]; cbn [imatches] in Mi; destruct Mi as [M1 M2]; rewrite M1 in Eo.
  - exists g'. split; [apply Sr; auto|]. eapply same_trans; eauto.
  - exists (ps_ext C). split; [rewrite Sr by auto|rewrite <- M2; auto].
    rewrite <- (with_ext_id C) at 1. rewrite step_commit_ext. reflexivity.
  - exists (ps_ext C). split; [rewrite Sr by auto|rewrite <- M2; auto].
    rewrite <- (with_ext_id C) at 1. rewrite step_commit_ext. reflexivity.
Qed.

(** Every run of whole items is a run of single operations *)
Lemma coarse_fine_step st C i : idle_like st C -> exists more, idle_like (fsteps prg n st more) (step run n C i).
Proof.
  intros (Hc & Hs & Hn).
  assert (Hw : ps_workers (fp_pool st) = ps_workers C) by (rewrite Hc; auto).
  assert (Ha : ps_aborted (fp_pool st) = ps_aborted C) by (rewrite Hc; auto).
  destruct (ps_aborted C) eqn:Ab.
  { exists []. unfold step. rewrite Ab. split; auto. }
  destruct (nth_error (ps_workers C) i) as [w|] eqn:E.
  2: { exists []. unfold step. rewrite Ab, E. split; auto. }
  assert (O : (forall x, wk_pc w <> PRun x) -> fstep prg n st i = {| fp_pool := step (commit Diverges) n (fp_pool st) i; fp_progs := fp_progs st |} ->
    exists more, idle_like (fsteps prg n st more) (step run n C i)).
  { intros N Ef. exists [i]. cbn [fsteps fold_left]. rewrite Ef. unfold idle_like. cbn [fp_pool fp_progs].
    assert (N' : forall w' x, nth_error (ps_workers C) i = Some w' -> wk_pc w' <> PRun x).
    { intros w' x E'. rewrite E in E'. injection E' as <-. auto. }
    rewrite Hc.
    destruct (step_other (commit Diverges) run n C (ps_ext (fp_pool st)) i N') as [E1 E2].
    rewrite E1, E2. cbn [with_ext ps_ext]. auto. }
  destruct (wk_pc w) as [ |x|x|x|xs| | | |k| | | |k| | ] eqn:P;
    try (apply O; [intros; discriminate|unfold fstep; rewrite Ha, Hw, E, P; reflexivity]).
  clear O.
  set (st1 := {| fp_pool := fp_pool st; fp_progs := set_prog (fp_progs st) i (Some (prg x)) |}).
  assert (S1 : fstep prg n st i = st1). { unfold fstep. rewrite Ha, Hw, E, P, Hn. reflexivity. }
  destruct (run_through i w x (prg x) st1) as (k & st2 & E1 & E2 & E3 & E4); auto.
  { cbn. rewrite Hw. auto. }
  { cbn. apply set_same. }
  cbn [st1 fp_pool fp_progs] in E2, E3, E4.
  exists (i :: repeat i k ++ [i]). cbn [fsteps fold_left]. rewrite S1. fold (fsteps prg n st1 (repeat i k ++ [i])).
  rewrite fsteps_app, E1. cbn [fsteps fold_left].
  set (g2 := fst (alone (ps_ext (fp_pool st)) (prg x))) in *. set (o := snd (alone (ps_ext (fp_pool st)) (prg x))) in *.
  assert (S2 : fstep prg n st2 i = {| fp_pool := step (commit o) n (fp_pool st2) i; fp_progs := set_prog (fp_progs st2) i None |}).
  { unfold fstep. rewrite E2 at 1. cbn [with_ext ps_aborted]. rewrite Ha.
    rewrite E2 at 1. cbn [with_ext ps_workers]. rewrite Hw, E, P, E3. reflexivity. }
  rewrite S2. destruct (alone_same (prg x) _ _ Hs) as [Q1 Q2]. fold g2 in Q2. fold o in Q1.
  destruct (commit_like i w x C g2 o E P Ab Q1 Q2) as (g' & Er & Sg).
  assert (Ei : step (commit o) n (fp_pool st2) i = with_ext (step (commit o) n C i) g2).
  { rewrite E2, Hc, with_ext_twice. apply step_commit_ext. }
  unfold idle_like. cbn [fp_pool fp_progs]. rewrite Ei, Er. cbn [with_ext ps_ext]. split; [reflexivity|]. split; auto.
  intros j. destruct (Nat.eq_dec j i) as [->|Ne]; [apply set_same|]. rewrite set_else, E4, set_else by auto. auto.
Qed.

Lemma coarse_fine sched : exists fsched, let p := fp_pool (ffinal fsched) in
  p = with_ext (final sched) (ps_ext p) /\ same_fs (ps_ext p) (ps_ext (final sched)).
Proof.
  cut (exists fsched, idle_like (ffinal fsched) (final sched)).
  { intros (fs0 & H1 & H2 & _). exists fs0. auto. }
  induction sched as [|i sched [fs0 IH]] using rev_ind.
  - exists []. split; [reflexivity|]. split; [apply same_refl|reflexivity].
  - destruct (coarse_fine_step _ _ i IH) as [more H]. exists (fs0 ++ more). rewrite fsteps_app, final_app. exact H.
Qed.

(** *** One worker: no condition on the files *)
Record sim1 (st : fpool work report) (sched : list nat) : Prop := {
  sim1_ctl : fp_pool st = with_ext (final sched) (ps_ext (fp_pool st));
  sim1_idle : fp_progs st 0 = None -> same_fs (ps_ext (fp_pool st)) (ps_ext (final sched));
  sim1_prog : forall p, fp_progs st 0 = Some p -> exists w x, nth_error (ps_workers (final sched)) 0 = Some w /\ wk_pc w = PRun x /\
    snd (alone (ps_ext (fp_pool st)) p) = snd (alone (ps_ext (final sched)) (prg x)) /\
    same_fs (fst (alone (ps_ext (fp_pool st)) p)) (fst (alone (ps_ext (final sched)) (prg x))) }.

Lemma workers_length sched : List.length (ps_workers (final sched)) = n.
Proof. destruct (flags_steps run n _ sched (flags_start n (WDir root) f)) as [L _]. exact L. Qed.

Lemma sim1_step st sched i : n = 1 -> sim1 st sched -> exists sched', sim1 (fstep prg n st i) sched'.
Proof.
  intros N1 [Hc Hi Hp].
  assert (Hw : ps_workers (fp_pool st) = ps_workers (final sched)) by (rewrite Hc; auto).
  unfold fstep. destruct (ps_aborted (fp_pool st)) eqn:Ab; [exists sched; split; auto|].
  rewrite Hw. destruct (nth_error (ps_workers (final sched)) i) as [w|] eqn:E; [|exists sched; split; auto].
  assert (i = 0).
  { assert (L : i < List.length (ps_workers (final sched))) by (apply nth_error_Some; congruence).
    rewrite workers_length in L. lia. }
  subst i. set (g := ps_ext (fp_pool st)) in *.
  assert (O : (forall x, wk_pc w <> PRun x) -> exists sched', sim1 {| fp_pool := step (commit Diverges) n (fp_pool st) 0; fp_progs := fp_progs st |} sched').
  { intros N. exists (sched ++ [0]).
    assert (N' : forall w' x, nth_error (ps_workers (final sched)) 0 = Some w' -> wk_pc w' <> PRun x).
    { intros w' x E'. rewrite E in E'. injection E' as <-. auto. }
    destruct (step_other (commit Diverges) run n (final sched) g 0 N') as [E1 E2].
    assert (Ei : step (commit Diverges) n (fp_pool st) 0 = with_ext (final (sched ++ [0])) g).
    { rewrite Hc. rewrite E1, final_app. auto. }
    split; cbn [fp_pool fp_progs]; rewrite Ei; cbn [with_ext ps_ext]; auto.
    - intros K. rewrite final_app, E2. auto.
    - intros p K. destruct (Hp p K) as (w' & x & E' & P & _). destruct (N' w' x E' P). }
  destruct (wk_pc w) as [ |x|x|x|xs| | | |k| | | |k| | ] eqn:P; try (apply O; intros; discriminate).
  clear O. destruct (fp_progs st 0) as [[o|l k|l v k]|] eqn:H0.
  - exists (sched ++ [0]). destruct (Hp _ eq_refl) as (w' & y & E' & P' & A1 & A2). cbn [alone fst snd] in A1, A2.
    assert (w' = w) by congruence. subst w'. assert (y = x) by congruence. subst y.
    assert (Ab' : ps_aborted (final sched) = false) by (rewrite Hc in Ab; exact Ab).
    destruct (commit_like 0 w x (final sched) g o E P Ab' A1 A2) as (g' & Er & Sg).
    assert (Ei : step (commit o) n (fp_pool st) 0 = with_ext (step (commit o) n (final sched) 0) g).
    { rewrite Hc. apply step_commit_ext. }
    split; cbn [fp_pool fp_progs]; rewrite Ei, final_app, Er; cbn [with_ext ps_ext].
    + reflexivity.
    + auto.
    + intros p K. rewrite set_same in K. discriminate.
  - exists sched. destruct (Hp _ eq_refl) as (w' & y & E' & P' & A1 & A2).
    split; cbn [fp_pool fp_progs]; auto.
    + intros K. rewrite set_same in K. discriminate.
    + intros p K. rewrite set_same in K. injection K as <-. exists w', y. auto.
  - exists sched. destruct (Hp _ eq_refl) as (w' & y & E' & P' & A1 & A2).
    split; cbn [fp_pool fp_progs with_ext ps_ext].
    + rewrite Hc at 1. reflexivity.
    + intros K. rewrite set_same in K. discriminate.
    + intros p K. rewrite set_same in K. injection K as <-. exists w', y. auto.
  - exists sched. split; cbn [fp_pool fp_progs]; auto.
    + intros p K. rewrite set_same in K. injection K as <-. exists w, x.
      destruct (alone_same (prg x) _ _ (Hi eq_refl)) as [A1 A2]. auto.
Qed.

Lemma fine_single fsched : n = 1 -> let p := fp_pool (ffinal fsched) in
  exists sched, p = with_ext (final sched) (ps_ext p) /\
    (pool_status p = AllReturned -> same_fs (ps_ext p) (ps_ext (final sched))).
Proof.
  intros N1. cbn zeta.
  assert (X : exists sched, sim1 (ffinal fsched) sched).
  { induction fsched as [|i fsched [sched IH]] using rev_ind.
    - exists []. split; cbn; auto; [intros; apply same_refl|discriminate].
    - unfold fsteps in *. rewrite fold_left_app. cbn [fold_left]. eapply sim1_step; eauto. }
  destruct X as [sched [Hc Hi Hp]]. exists sched. split; auto. intros St.
  destruct (fp_progs (ffinal fsched) 0) as [p|] eqn:E0; [|auto]. exfalso.
  destruct (Hp p eq_refl) as (w & x & E & P & _).
  rewrite Hc in St. unfold pool_status in St. cbn [with_ext ps_aborted ps_workers] in St.
  destruct (ps_aborted (final sched)); [discriminate|].
  destruct (forallb _ _) eqn:Fb; [|discriminate]. rewrite forallb_forall in Fb.
  specialize (Fb w (nth_error_In _ _ E)). unfold is_done, is_panicked in Fb. rewrite P in Fb. discriminate.
Qed.
End More.

(** *** Completeness: the pool's control does not look at the files *)
Section Replay.
Context {W R : Type}.
Variables (Weq : forall x y : W, {x = y} + {x <> y}) (prg : W -> prog (list W * R)) (kids : W -> list W) (n : nat) (root : W) (f : fs).

(** Every way a program can end asks for the children of its item *)
Fixpoint ends_with (ch : list W) (p : prog (list W * R)) : Prop :=
  match p with
  | FRet (Done (ch', _)) => ch' = ch
  | FRet _ => True
  | FRead _ k => forall v, ends_with ch (k v)
  | FPut _ _ k => ends_with ch k
  end.
Hypothesis prg_kids : forall x, ends_with (kids x) (prg x).

(** A runner that replays a list of recorded results *)
Definition replay : runner W (list (outcome R)) R := fun x os =>
  match os with
  | Done r :: os' => Done (os', kids x, r)
  | Panics :: _ => Panics
  | Diverges :: _ => Diverges
  | [] => Diverges
  end.
Lemma replay_kids x g g' ch r : replay x g = Done (g', ch, r) -> ch = kids x.
Proof. unfold replay. destruct g as [|[a| |] g]; intros H; inversion H; auto. Qed.

Definition same_ctl {G H} (a : pool W G R) (b : pool W H R) : Prop :=
  ps_queue a = ps_queue b /\ ps_nwait a = ps_nwait b /\ ps_nquit a = ps_nquit b /\
  ps_workers a = ps_workers b /\ ps_aborted a = ps_aborted b.

Lemma ctl_other {G H} (r : runner W G R) (r' : runner W H R) a b i : same_ctl a b ->
  (forall w x, nth_error (ps_workers b) i = Some w -> wk_pc w <> PRun x) ->
  same_ctl (step r n a i) (step r' n b i) /\ ps_ext (step r' n b i) = ps_ext b.
Proof.
  intros (E1 & E2 & E3 & E4 & E5) N. unfold step. rewrite E5, E4. destruct (ps_aborted b) eqn:Ab; [split; [repeat split; congruence|auto]|].
  destruct (nth_error (ps_workers b) i) as [w|] eqn:E; [|split; [repeat split; congruence|auto]].
  specialize (N w). destruct w as [p q l g]. unfold wstep. cbn [wk_pc wk_waiting wk_quitting wk_log] in *.
  unfold same_ctl. rewrite E1, E2, E3.
  destruct p as [ |x|x|x|xs| | | |k| | | |k| | ]; try (repeat split; reflexivity).
  - destruct (ps_queue b) as [|[x|] q']; repeat split; reflexivity.
  - destruct (N x eq_refl eq_refl).
  - destruct xs; repeat split; reflexivity.
  - destruct (k <? n); [repeat split; reflexivity|]. destruct (Nat.eqb (ps_nquit b) n); repeat split; reflexivity.
  - destruct (Nat.eqb (ps_nwait b) n); repeat split; reflexivity.
  - destruct k; repeat split; reflexivity.
Qed.

Definition result (o : outcome (list W * R)) : outcome R :=
  match o with Done (_, r) => Done r | Panics => Panics | Diverges => Diverges end.

Lemma ctl_commit (a : pool W fs R) b i w x ch r os : same_ctl a b -> nth_error (ps_workers b) i = Some w -> wk_pc w = PRun x ->
  ch = kids x -> ps_ext b = Done r :: os -> ps_aborted b = false ->
  same_ctl (step (commit (Done (ch, r))) n a i) (step replay n b i) /\ ps_ext (step replay n b i) = os.
Proof.
  intros (E1 & E2 & E3 & E4 & E5) E P K X Ab. unfold step. rewrite E5, E4, E, Ab.
  unfold wstep. rewrite P, X, E1, E2, E3. unfold commit, replay. subst ch. split; [repeat split; reflexivity|reflexivity].
Qed.

(** A panic or abort is never undone *)
Definition broken {G} (p : pool W G R) : Prop := ps_aborted p = true \/ exists i w, nth_error (ps_workers p) i = Some w /\ wk_pc w = PPanicked.
Lemma broken_step (r : runner W fs R) p i : broken p -> broken (step r n p i).
Proof.
  intros [A|(j & w & E & P)].
  - left. unfold step. rewrite A. auto.
  - destruct (Nat.eq_dec j i) as [->|Ne]; [|right; exists j, w; rewrite step_worker; auto].
    unfold step. destruct (ps_aborted p) eqn:A; [left; auto|]. rewrite E. unfold wstep. rewrite P. right.
    cbn [ps_workers]. destruct (nth_split_update _ _ _ E) as (l1 & l2 & _ & L & U). rewrite U.
    exists i. eexists. rewrite nth_error_app2 by lia. subst i. rewrite Nat.sub_diag. split; reflexivity.
Qed.

(** [st] is reached by replaying [os] *)
Definition replayed (st : fpool W R) : Prop :=
  exists sched os, (forall rest, let p := steps replay n (start n root (os ++ rest)) sched in
    same_ctl (fp_pool st) p /\ ps_ext p = rest) /\
  forall i p, fp_progs st i = Some p -> exists w x, nth_error (ps_workers (fp_pool st)) i = Some w /\ wk_pc w = PRun x /\ ends_with (kids x) p.

Lemma broken_fstep st i : broken (fp_pool st) -> broken (fp_pool (fstep prg n st i)).
Proof.
  intros B. unfold fstep. destruct (ps_aborted (fp_pool st)); auto.
  destruct (nth_error (ps_workers (fp_pool st)) i) as [w|]; auto.
  destruct (wk_pc w); try (apply broken_step; exact B).
  destruct (fp_progs st i) as [[o|l k|l v k]|]; try (apply broken_step; exact B); auto.
Qed.

Lemma replayed_step st i : replayed st -> broken (fp_pool (fstep prg n st i)) \/ replayed (fstep prg n st i).
Proof.
  intros (sched & os & H & Hp). unfold fstep. destruct (ps_aborted (fp_pool st)) eqn:Ab; [left; left; auto|].
  destruct (nth_error (ps_workers (fp_pool st)) i) as [w|] eqn:E.
  2: { right. exists sched, os. auto. }
  assert (Stay : forall p (pool' : pool W fs R) x, wk_pc w = PRun x -> ends_with (kids x) p ->
    (forall rest, same_ctl pool' (steps replay n (start n root (os ++ rest)) sched)) -> ps_workers pool' = ps_workers (fp_pool st) ->
    replayed {| fp_pool := pool'; fp_progs := set_prog (fp_progs st) i (Some p) |}).
  { intros p pool' x P K Sc Ew. exists sched, os. split.
    - intros rest. split; [apply Sc|apply (H rest)].
    - cbn [fp_pool fp_progs]. rewrite Ew. intros j q Hq. destruct (Nat.eq_dec j i) as [->|Ne].
      + rewrite set_same in Hq. injection Hq as <-. exists w, x. auto.
      + rewrite set_else in Hq by auto. auto. }
  assert (O : (forall x, wk_pc w <> PRun x) -> replayed {| fp_pool := step (commit Diverges) n (fp_pool st) i; fp_progs := fp_progs st |}).
  { intros N. exists (sched ++ [i]), os. split.
    - intros rest. cbn zeta. rewrite steps_app. cbn [steps fold_left fp_pool]. destruct (H rest) as [Sc Ex].
      destruct (ctl_other (commit Diverges) replay (fp_pool st) _ i Sc) as [S1 S2].
      { intros w' x E'. destruct Sc as (_ & _ & _ & Ew & _). rewrite <- Ew, E in E'. injection E' as <-. auto. }
      split; [exact S1|]. unfold steps in *. rewrite S2. exact Ex.
    - cbn [fp_pool fp_progs]. intros j q Hq. destruct (Hp j q Hq) as (w' & x & E' & P' & K).
      assert (Ne : j <> i) by (intros ->; apply (N x); congruence).
      exists w', x. rewrite step_worker by auto. auto. }
  destruct (wk_pc w) as [ |x|x|x|xs| | | |k| | | |k| | ] eqn:P; try (right; apply O; intros; discriminate).
  clear O. destruct (fp_progs st i) as [[o|l k|l v k]|] eqn:Hi.
  - destruct (Hp i _ Hi) as (w' & y & E' & P' & K). assert (w' = w) by congruence. subst w'. assert (y = x) by congruence. subst y.
    destruct o as [[ch r]| |].
    + right. exists (sched ++ [i]), (os ++ [Done r]). split.
      * intros rest. cbn zeta. rewrite steps_app, <- app_assoc. cbn [app steps fold_left fp_pool]. destruct (H (Done r :: rest)) as [Sc Ex].
        assert (Sw := Sc). destruct Sw as (_ & _ & _ & Ew & Ea).
        apply (ctl_commit (fp_pool st) _ i w x ch r rest Sc); auto; [rewrite <- Ew; auto|rewrite <- Ea; auto].
      * cbn [fp_pool fp_progs]. intros j q Hq. assert (Ne : j <> i) by (intros ->; rewrite set_same in Hq; discriminate).
        rewrite set_else in Hq by auto. destruct (Hp j q Hq) as (w' & z & E2 & P2 & K2). exists w', z. rewrite step_worker by auto. auto.
    + left. right. cbn [fp_pool]. unfold step. rewrite Ab, E. unfold wstep. rewrite P. cbn [commit ps_workers].
      destruct (nth_split_update _ _ _ E) as (l1 & l2 & _ & L & U). rewrite U.
      exists i. eexists. rewrite nth_error_app2 by lia. subst i. rewrite Nat.sub_diag. split; reflexivity.
    + left. left. cbn [fp_pool]. unfold step. rewrite Ab, E. unfold wstep. rewrite P. reflexivity.
  - right. destruct (Hp i _ Hi) as (w' & y & E' & P' & K). assert (w' = w) by congruence. subst w'. assert (y = x) by congruence. subst y.
    apply (Stay _ _ x); auto. intros rest. apply (H rest).
  - right. destruct (Hp i _ Hi) as (w' & y & E' & P' & K). assert (w' = w) by congruence. subst w'. assert (y = x) by congruence. subst y.
    apply (Stay _ _ x); auto. intros rest. apply (H rest).
  - right. apply (Stay _ _ x); auto. intros rest. apply (H rest).
Qed.

Lemma replayed_steps fsched : let st := fsteps prg n (fstart n root f) fsched in broken (fp_pool st) \/ replayed st.
Proof.
  cbn zeta. induction fsched as [|i l IH] using rev_ind.
  - right. exists [], []. split; [intros rest; split; [repeat split|reflexivity]|]. cbn. discriminate.
  - unfold fsteps in *. rewrite fold_left_app. cbn [fold_left]. destruct IH as [IH|IH]; [left; apply broken_fstep; auto|apply replayed_step; auto].
Qed.

(** A pool that has returned was complete in the sense of the coarse pool *)
Lemma fine_replay fsched : let p := fp_pool (fsteps prg n (fstart n root f) fsched) in
  pool_status p = AllReturned ->
  exists sched os, same_ctl p (steps replay n (start n root os) sched).
Proof.
  cbn zeta. intros St. destruct (replayed_steps fsched) as [[B|(i & w & E & P)]|(sched & os & H & _)].
  - exfalso. unfold pool_status in St. rewrite B in St. discriminate.
  - exfalso. apply returned_hands in St as (_ & St & _).
    assert (I : In w (filter is_panicked (ps_workers (fp_pool (fsteps prg n (fstart n root f) fsched))))).
    { apply filter_In. split; [eapply nth_error_In; eauto|]. unfold is_panicked. rewrite P. auto. }
    rewrite St in I. destruct I.
  - exists sched, (os ++ []). apply (H []).
Qed.
End Replay.

(** Files produce no work, directories their children *)
Lemma ends_seq {A} (ch : list work) (p : prog A) (k : A -> prog (list work * report)) :
  (forall a, ends_with ch (k a)) -> ends_with ch (bind p k).
Proof. intros H. induction p as [[a| |]|l r IH|l v q IH]; cbn [bind ends_with]; auto. Qed.
Lemma item_ends gr fuel e ls c s x : ends_with (dir_kids ls x) (item_prog gr fuel e ls c s x).
Proof.
  destruct x as [path|d]; cbn [item_prog].
  - apply ends_seq. intros [r|ms]; reflexivity.
  - pose proof (run_work_kids fuel e ls c s (WDir d) (fun _ => Err "")) as K. cbn [run_work] in K. cbn [ends_with].
    destruct (run_dir_entry ls d); eapply K; reflexivity.
Qed.

Section Whole.
Variables (gr : grain) (fuel : nat) (e : env) (ls : listing) (c : cconfig) (s : schema) (n : nat) (root : string) (f : fs).
Notation prg := (item_prog gr fuel e ls c s).
Notation fine fsched := (fp_pool (fsteps prg n (fstart n (WDir root) f) fsched)).

Lemma ctl_completed {W G H R} (a : pool W G R) (b : pool W H R) : same_ctl a b -> completed a = completed b /\ ps_queue a = ps_queue b /\ pool_status a = pool_status b.
Proof. intros (E1 & E2 & E3 & E4 & E5). unfold completed, pool_log, pool_status. rewrite E1, E4, E5. auto. Qed.

(** Each position at most once, and all of them unless work is left in the channel *)
Lemma fine_once fsched : pool_status (fine fsched) = AllReturned ->
  (exists ps, NoDup ps /\ Forall2 (in_tree ls root) ps (completed (fine fsched))) /\
  (every_once ls root (completed (fine fsched)) <-> queued (ps_queue (fine fsched)) = []).
Proof.
  intros St. destruct (fine_replay prg (dir_kids ls) n (WDir root) f (item_ends gr fuel e ls c s) fsched St) as (sched & os & Sc).
  destruct (ctl_completed _ _ Sc) as (-> & -> & Es). rewrite Es in St.
  destruct (at_most_once work_eq (replay (dir_kids ls)) n (dir_kids ls) (replay_kids _) (WDir root) os sched) as (ps & H1 & H2 & H3 & H4).
  set (p := steps _ _ _ _) in *. split; [eauto|]. split.
  - intros (ps' & N & F & A). destruct (queued (ps_queue p)) as [|x l] eqn:Q; auto. exfalso.
    destruct (H4 x (or_introl eq_refl)) as (q & Np & Ip).
    assert (I : incl (q :: ps) ps').
    { intros r [<-|I]; [eapply A; eauto|]. destruct (Forall2_In_l _ _ _ _ H2 I) as [y Hy]. eapply A; eauto. }
    apply NoDup_incl_length in I; [|constructor; auto].
    apply Forall2_len in H2. apply Forall2_len in F. cbn in I. lia.
  - intros Q. exists ps. split; auto. split; auto. destruct (returned_hands _ St) as (A & B & _). apply H3; auto.
Qed.

Lemma fine_flat fsched : 0 < n -> flat_tree ls root -> pool_status (fine fsched) = AllReturned ->
  every_once ls root (completed (fine fsched)).
Proof.
  intros Hn F St. apply (fine_once fsched St).
  destruct (fine_replay prg (dir_kids ls) n (WDir root) f (item_ends gr fuel e ls c s) fsched St) as (sched & os & Sc).
  destruct (ctl_completed _ _ Sc) as (_ & -> & Es). rewrite Es in St.
  apply (flat_complete (replay (dir_kids ls)) n (dir_kids ls) (replay_kids _) (WDir root) os sched); auto.
  apply Forall_forall. exact F.
Qed.
Lemma fine_one fsched : n = 1 -> pool_status (fine fsched) = AllReturned -> every_once ls root (completed (fine fsched)).
Proof.
  intros Hn St. apply (fine_once fsched St).
  destruct (fine_replay prg (dir_kids ls) n (WDir root) f (item_ends gr fuel e ls c s) fsched St) as (sched & os & Sc).
  destruct (ctl_completed _ _ Sc) as (_ & -> & Es). rewrite Es in St.
  apply (single_complete (replay (dir_kids ls)) n (WDir root) os sched); auto.
Qed.
End Whole.
