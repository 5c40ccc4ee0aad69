(** The pool of single file operations behaves like the pool of whole items. *)
From Verif Require Export FineFacts.
From Coq Require Import Lia.

Section Sim.
Variables (gr : grain) (fuel : nat) (e : env) (ls : listing) (c : cconfig) (s : schema) (n : nat) (root : string) (f : fs).
Hypothesis Gr : grain_ok gr.
Hypothesis names : names_ok ls.
Hypothesis sep : separate e ls c root f.
Notation run := (run_work fuel e ls c s).
Notation prg := (item_prog gr fuel e ls c s).
Notation final sched := (steps run n (start n (WDir root) f) sched).
Notation ffinal sched := (fsteps prg n (fstart n (WDir root) f) sched).

(** Facts about states of the coarse pool *)
Lemma running_source sched i w path : nth_error (ps_workers (final sched)) i = Some w -> wk_pc w = PRun (WFile path) ->
  is_source ls root path.
Proof.
  intros E P.
  assert (X : Forall (fun y => exists p, in_tree ls root p y) (hands (final sched))).
  { destruct (@items_start work fs report n (fun y => exists p, in_tree ls root p y) (WDir root) f (ex_intro _ [] (node_root _ _))) as (Hq & Hh & Hc).
    apply (items_inv run n (dir_kids ls) (run_work_kids fuel e ls c s) _ (kid_in_tree ls root) sched _ Hq Hh Hc). }
  rewrite Forall_forall in X. apply X. unfold hands. apply in_flat_map. exists w. split; [eapply nth_error_In; eauto|].
  rewrite P. cbn. auto.
Qed.
Lemma completed_source sched path : In (WFile path) (completed (final sched)) -> is_source ls root path.
Proof.
  intros I.
  assert (X : Forall (fun y => exists p, in_tree ls root p y) (completed (final sched))).
  { destruct (@items_start work fs report n (fun y => exists p, in_tree ls root p y) (WDir root) f (ex_intro _ [] (node_root _ _))) as (Hq & Hh & Hc).
    apply (items_inv run n (dir_kids ls) (run_work_kids fuel e ls c s) _ (kid_in_tree ls root) sched _ Hq Hh Hc). }
  rewrite Forall_forall in X. exact (X _ I).
Qed.
Lemma running_distinct sched i j wi wj a b : i <> j ->
  nth_error (ps_workers (final sched)) i = Some wi -> nth_error (ps_workers (final sched)) j = Some wj ->
  wk_pc wi = PRun (WFile a) -> wk_pc wj = PRun (WFile b) -> out_loc e a <> out_loc e b.
Proof.
  intros Ne Ei Ej Pi Pj E.
  pose proof (running_source sched i wi a Ei Pi) as Sa. pose proof (running_source sched j wj b Ej Pj) as Sb.
  pose proof (proj2 sep a b Sa Sb E) as E'.
  destruct (running_positions work_eq run n (dir_kids ls) (run_work_kids fuel e ls c s) (WDir root) f sched i j wi wj _ _ Ne Ei Ej Pi Pj)
    as (p & q & Hp & Hq & Npq).
  apply Npq. exact (outputs_distinct ls root names p q a b Hp Hq E').
Qed.

Notation rd := (ireads e f c).
Notation wr := (writes e).

(** What a running item reads is as it was at the start *)
Lemma read_initial sched i w x l : nth_error (ps_workers (final sched)) i = Some w -> wk_pc w = PRun x ->
  rd x l -> ps_ext (final sched) l = f l.
Proof.
  intros E P R. destruct x as [path|d]; [|destruct R]. cbn in R.
  destruct (fs_inv_steps fuel e ls c s n root f names sep sched) as (_ & _ & I3). apply I3.
  intros p' Ip. exact (proj1 sep path p' l (running_source sched i w path E P) (completed_source sched p' Ip) R).
Qed.
Lemma read_no_write sched i w x j w' y l : nth_error (ps_workers (final sched)) i = Some w -> wk_pc w = PRun x ->
  nth_error (ps_workers (final sched)) j = Some w' -> wk_pc w' = PRun y -> rd x l -> ~ wr y l.
Proof.
  intros E P E' P' R Wl. destruct x as [a|d]; [|destruct R]. destruct y as [b|d]; [|destruct Wl]. cbn in R, Wl.
  exact (proj1 sep a b l (running_source sched i w a E P) (running_source sched j w' b E' P') R Wl).
Qed.
Lemma write_write sched i w x j w' y l : i <> j -> nth_error (ps_workers (final sched)) i = Some w -> wk_pc w = PRun x ->
  nth_error (ps_workers (final sched)) j = Some w' -> wk_pc w' = PRun y -> wr x l -> ~ wr y l.
Proof.
  intros Ne E P E' P' R Wl. destruct x as [a|d]; [|destruct R]. destruct y as [b|d]; [|destruct Wl]. cbn in R, Wl.
  apply (running_distinct sched i j w w' a b); auto. congruence.
Qed.
Lemma wr_dec x l : {wr x l} + {~ wr x l}.
Proof. destruct x as [p|d]; cbn; [apply string_dec|auto]. Qed.

(** The relation.  [g]: contents in the fine pool *)
Record sim (st : fpool work report) (sched : list nat) : Prop := {
  sim_ctl : fp_pool st = with_ext (final sched) (ps_ext (fp_pool st));
  sim_prog : forall i p, fp_progs st i = Some p -> exists w x, nth_error (ps_workers (final sched)) i = Some w /\ wk_pc w = PRun x /\
    touches f (rd x) (wr x) p /\
    snd (alone (ps_ext (fp_pool st)) p) = snd (alone (ps_ext (final sched)) (prg x)) /\
    forall l, wr x l -> fst (alone (ps_ext (fp_pool st)) p) l = fst (alone (ps_ext (final sched)) (prg x)) l;
  sim_ext : forall l, (forall i p w x, fp_progs st i = Some p -> nth_error (ps_workers (final sched)) i = Some w ->
      wk_pc w = PRun x -> ~ wr x l) -> ps_ext (fp_pool st) l = ps_ext (final sched) l }.

Lemma sim_read st sched i w x l : sim st sched -> nth_error (ps_workers (final sched)) i = Some w -> wk_pc w = PRun x ->
  rd x l -> ps_ext (fp_pool st) l = f l.
Proof.
  intros S E P R. rewrite (sim_ext _ _ S).
  - eapply read_initial; eauto.
  - intros j p w' y _ E' P'. eapply read_no_write; [exact E|exact P|exact E'|exact P'|exact R].
Qed.

Lemma rd_wr sched i w x : nth_error (ps_workers (final sched)) i = Some w -> wk_pc w = PRun x -> forall l, rd x l -> ~ wr x l.
Proof. intros E P l R. eapply read_no_write; eauto. Qed.

Lemma sim_start : sim (fstart n (WDir root) f) [].
Proof. split; cbn; auto. discriminate. Qed.

Lemma final_app sched i : final (sched ++ [i]) = step run n (final sched) i.
Proof. rewrite steps_app. reflexivity. Qed.

Lemma set_same {A} (ps : nat -> option A) i p : set_prog ps i p i = p.
Proof. unfold set_prog. rewrite Nat.eqb_refl. auto. Qed.
Lemma set_else {A} (ps : nat -> option A) i j p : j <> i -> set_prog ps i p j = ps j.
Proof. intros N. unfold set_prog. destruct (Nat.eqb j i) eqn:E; auto. apply Nat.eqb_eq in E. contradiction. Qed.

Lemma fp_workers st sched : sim st sched -> ps_workers (fp_pool st) = ps_workers (final sched).
Proof. intros S. rewrite (sim_ctl _ _ S). reflexivity. Qed.

(** An operation: the coarse pool does not move *)
Lemma sim_install st sched i w x : sim st sched -> nth_error (ps_workers (final sched)) i = Some w -> wk_pc w = PRun x ->
  fp_progs st i = None -> sim {| fp_pool := fp_pool st; fp_progs := set_prog (fp_progs st) i (Some (prg x)) |} sched.
Proof.
  intros S E P N. split; cbn [fp_pool fp_progs]; [apply (sim_ctl _ _ S)| |].
  - intros j p Hp. destruct (Nat.eq_dec j i) as [->|Ne]; [|rewrite set_else in Hp by auto; apply (sim_prog _ _ S j p Hp)].
    rewrite set_same in Hp. injection Hp as <-. exists w, x. split; auto. split; auto.
    pose proof (touches_item gr Gr e fuel ls f c s x) as T. split; auto.
    destruct (alone_agree f (rd x) (wr x) (prg x) (rd_wr sched i w x E P) (ps_ext (fp_pool st)) (ps_ext (final sched)) T) as (A1 & A2 & A3).
    { intros l. apply (sim_read st sched i w x l S E P). }
    { intros l. apply (read_initial sched i w x l E P). }
    split; auto. intros l Wl. apply A2. apply (sim_ext _ _ S).
    intros j p w' y Hp E' P'. assert (Ne : i <> j) by (intros ->; congruence).
    eapply write_write; [exact Ne|exact E|exact P|exact E'|exact P'|exact Wl].
  - intros l H. apply (sim_ext _ _ S). intros j p w' y Hp E' P'. destruct (Nat.eq_dec j i) as [->|Ne]; [congruence|].
    eapply H; eauto. rewrite set_else; eauto.
Qed.

Lemma sim_fread st sched i l k : sim st sched -> fp_progs st i = Some (FRead l k) ->
  sim {| fp_pool := fp_pool st; fp_progs := set_prog (fp_progs st) i (Some (k (ps_ext (fp_pool st) l))) |} sched.
Proof.
  intros S Hi. destruct (sim_prog _ _ S i _ Hi) as (w & x & E & P & [Rl T] & A1 & A2).
  split; cbn [fp_pool fp_progs]; [apply (sim_ctl _ _ S)| |].
  - intros j p Hp. destruct (Nat.eq_dec j i) as [->|Ne]; [|rewrite set_else in Hp by auto; apply (sim_prog _ _ S j p Hp)].
    rewrite set_same in Hp. injection Hp as <-. exists w, x. split; auto. split; auto.
    split; [|split; [exact A1|exact A2]]. rewrite (sim_read st sched i w x l S E P Rl). auto.
  - intros l' H. apply (sim_ext _ _ S). intros j p w' y Hp E' P'. destruct (Nat.eq_dec j i) as [->|Ne].
    + eapply (H i); eauto. apply set_same.
    + eapply (H j); eauto. rewrite set_else; eauto.
Qed.

Lemma sim_fput st sched i l v k : sim st sched -> fp_progs st i = Some (FPut l v k) ->
  sim {| fp_pool := with_ext (fp_pool st) (put l v (ps_ext (fp_pool st))); fp_progs := set_prog (fp_progs st) i (Some k) |} sched.
Proof.
  intros S Hi. destruct (sim_prog _ _ S i _ Hi) as (w & x & E & P & [Wl T] & A1 & A2).
  split; cbn [fp_pool fp_progs with_ext ps_ext].
  - rewrite (sim_ctl _ _ S) at 1. reflexivity.
  - intros j p Hp. destruct (Nat.eq_dec j i) as [->|Ne].
    + rewrite set_same in Hp. injection Hp as <-. exists w, x. auto.
    + rewrite set_else in Hp by auto. destruct (sim_prog _ _ S j p Hp) as (w' & y & E' & P' & T' & B1 & B2).
      exists w', y. split; auto. split; auto. split; auto.
      assert (Nl : forall l', rd y l' \/ wr y l' -> put l v (ps_ext (fp_pool st)) l' = ps_ext (fp_pool st) l').
      { intros l' H. unfold put. destruct (String.eqb l' l) eqn:El; auto. apply String.eqb_eq in El. subst l'. exfalso.
        destruct H as [H|H].
        - eapply (read_no_write sched j w' y i w x l); eauto.
        - eapply (write_write sched i w x j w' y l); eauto. }
      destruct (alone_agree f (rd y) (wr y) p (rd_wr sched j w' y E' P') (put l v (ps_ext (fp_pool st))) (ps_ext (fp_pool st)) T') as (C1 & C2 & _).
      { intros l' R. rewrite Nl by auto. apply (sim_read st sched j w' y l' S E' P' R). }
      { intros l' R. apply (sim_read st sched j w' y l' S E' P' R). }
      split; [congruence|]. intros l' Wl'. rewrite C2 by auto. auto.
  - intros l' H. unfold put. destruct (String.eqb l' l) eqn:El.
    + apply String.eqb_eq in El. subst l'. exfalso. apply (H i k w x); auto. apply set_same.
    + apply (sim_ext _ _ S). intros j p w' y Hp E' P'. destruct (Nat.eq_dec j i) as [->|Ne].
      * apply (H i k w' y); auto. apply set_same.
      * apply (H j p w' y); auto. rewrite set_else; auto.
Qed.

(** The end of an item: the coarse pool performs it *)
Lemma sim_fret st sched i o : sim st sched -> ps_aborted (fp_pool st) = false -> fp_progs st i = Some (FRet o) ->
  sim {| fp_pool := step (commit o) n (fp_pool st) i; fp_progs := set_prog (fp_progs st) i None |} (sched ++ [i]).
Proof.
  intros S Ab Hi. destruct (sim_prog _ _ S i _ Hi) as (w & x & E & P & _ & A1 & A2). cbn [alone fst snd] in A1, A2.
  assert (Ab' : ps_aborted (final sched) = false). { rewrite (sim_ctl _ _ S) in Ab. exact Ab. }
  set (g := ps_ext (fp_pool st)) in *. set (C := final sched) in *.
  (* what the whole run does *)
  assert (X : exists g', final (sched ++ [i]) = with_ext (step (commit o) n C i) g' /\
     (forall l, wr x l -> g l = g' l) /\ (forall l, ~ wr x l -> g' l = ps_ext C l)).
  { rewrite final_app. fold C.
    pose proof (alone_item gr Gr e fuel ls c s (ps_ext C) x) as Mi.
    pose proof (touches_item gr Gr e fuel ls f c s x) as T.
    destruct (alone_agree f (rd x) (wr x) (prg x) (rd_wr sched i w x E P) (ps_ext C) (ps_ext C) T) as (_ & _ & A3);
      try (intros l; apply (read_initial sched i w x l E P)).
    pose proof (step_run run n C i w x o E P) as Sr.
    destruct (run x (ps_ext C)) as [[[g' ch] r]| |]; cbn [imatches] in Mi; destruct Mi as [M1 M2]; rewrite M1 in A1.
    - exists g'. split; [apply Sr; auto|]. split.
      + intros l Wl. rewrite A2 by auto. apply M2.
      + intros l Wl. rewrite <- M2. apply A3. auto.
    - exists (ps_ext C). split; [rewrite Sr by auto|].
      { rewrite <- (with_ext_id C) at 1. rewrite step_commit_ext. reflexivity. }
      split; auto. intros l Wl. rewrite A2, M2 by auto. auto.
    - exists (ps_ext C). split; [rewrite Sr by auto|].
      { rewrite <- (with_ext_id C) at 1. rewrite step_commit_ext. reflexivity. }
      split; auto. intros l Wl. rewrite A2, M2 by auto. auto. }
  destruct X as (g' & Ef & G1 & G2).
  assert (Eg : ps_ext (step (commit o) n (fp_pool st) i) = g).
  { rewrite (sim_ctl _ _ S). fold g C. rewrite step_commit_ext. reflexivity. }
  assert (Ew : forall j, j <> i -> nth_error (ps_workers (final (sched ++ [i]))) j = nth_error (ps_workers C) j).
  { intros j Ne. rewrite final_app. apply step_worker. auto. }
  split; cbn [fp_pool fp_progs].
  - rewrite Eg, Ef, with_ext_twice. rewrite (sim_ctl _ _ S) at 1. fold g C. apply step_commit_ext.
  - intros j p Hp. assert (Ne : j <> i) by (intros ->; rewrite set_same in Hp; discriminate).
    rewrite set_else in Hp by auto. destruct (sim_prog _ _ S j p Hp) as (w' & y & E' & P' & T' & B1 & B2).
    exists w', y. rewrite Ew by auto. split; auto. split; auto. split; auto.
    rewrite Eg. rewrite Ef. cbn [with_ext ps_ext]. fold g C in B1, B2.
    assert (Nl : forall l, rd y l \/ wr y l -> g' l = ps_ext C l).
    { intros l H. apply G2. intros Wl. destruct H as [H|H].
      - eapply (read_no_write sched j w' y i w x l); eauto.
      - eapply (write_write sched i w x j w' y l); eauto. }
    destruct (alone_agree f (rd y) (wr y) (prg y) (rd_wr sched j w' y E' P') g' (ps_ext C) (touches_item gr Gr e fuel ls f c s y)) as (C1 & C2 & _).
    { intros l R. rewrite Nl by auto. apply (read_initial sched j w' y l E' P' R). }
    { intros l R. apply (read_initial sched j w' y l E' P' R). }
    split; [congruence|]. intros l Wl. rewrite C2 by auto. auto.
  - intros l H. rewrite Eg, Ef. cbn [with_ext ps_ext].
    destruct (wr_dec x l) as [Wl|Wl]; auto. rewrite G2 by auto. apply (sim_ext _ _ S).
    intros j p w' y Hp E' P'. destruct (Nat.eq_dec j i) as [->|Ne].
    + fold C in E'. rewrite E in E'. injection E' as <-. rewrite P in P'. injection P' as <-. auto.
    + apply (H j p w' y); auto; [rewrite set_else; auto|rewrite Ew; auto].
Qed.

(** Any other step is the same in both *)
Lemma sim_other st sched i : sim st sched ->
  (forall w x, nth_error (ps_workers (final sched)) i = Some w -> wk_pc w <> PRun x) ->
  sim {| fp_pool := step (commit Diverges) n (fp_pool st) i; fp_progs := fp_progs st |} (sched ++ [i]).
Proof.
  intros S N. set (g := ps_ext (fp_pool st)).
  destruct (step_other (commit Diverges) run n (final sched) g i N) as [E1 E2].
  assert (Ei : step (commit Diverges) n (fp_pool st) i = with_ext (final (sched ++ [i])) g).
  { rewrite (sim_ctl _ _ S). fold g. rewrite E1, final_app. auto. }
  assert (Ew : forall j p, fp_progs st j = Some p -> nth_error (ps_workers (final (sched ++ [i]))) j = nth_error (ps_workers (final sched)) j).
  { intros j p Hp. rewrite final_app. apply step_worker. intros ->.
    destruct (sim_prog _ _ S i p Hp) as (w & x & E & P & _). exact (N w x E P). }
  split; cbn [fp_pool fp_progs]; rewrite Ei; cbn [with_ext ps_ext]; auto.
  - intros j p Hp. rewrite (Ew j p Hp). rewrite final_app, E2. apply (sim_prog _ _ S j p Hp).
  - intros l H. rewrite final_app, E2. apply (sim_ext _ _ S). intros j p w x Hp E P. apply (H j p w x); auto. rewrite (Ew j p Hp). auto.
Qed.

Lemma sim_step st sched i : sim st sched -> exists sched', sim (fstep prg n st i) sched'.
Proof.
  intros S. unfold fstep. destruct (ps_aborted (fp_pool st)) eqn:Ab; [exists sched; auto|].
  rewrite (fp_workers _ _ S). destruct (nth_error (ps_workers (final sched)) i) as [w|] eqn:E; [|exists sched; auto].
  assert (O : (forall x, wk_pc w <> PRun x) -> exists sched', sim {| fp_pool := step (commit Diverges) n (fp_pool st) i; fp_progs := fp_progs st |} sched').
  { intros N. exists (sched ++ [i]). apply sim_other; auto. intros w' x E'. rewrite E in E'. injection E' as <-. apply N. }
  destruct (wk_pc w) as [ |x|x|x|xs| | | |k| | | |k| | ] eqn:P; try (apply O; intros; discriminate).
  clear O. destruct (fp_progs st i) as [[o|l k|l v k]|] eqn:Hi.
  - exists (sched ++ [i]). apply sim_fret; auto.
  - exists sched. apply sim_fread; auto.
  - exists sched. apply sim_fput; auto.
  - exists sched. eapply sim_install; eauto.
Qed.

Lemma sim_steps fsched : exists sched, sim (ffinal fsched) sched.
Proof.
  induction fsched as [|i fsched [sched IH]] using rev_ind; [exists []; apply sim_start|].
  unfold fsteps in *. rewrite fold_left_app. cbn [fold_left]. eapply sim_step; eauto.
Qed.

(** Every interleaving of operations ends like some interleaving of whole items *)
Lemma fine_coarse fsched : let p := fp_pool (ffinal fsched) in
  exists sched, p = with_ext (final sched) (ps_ext p) /\
    (pool_status p = AllReturned -> same_fs (ps_ext p) (ps_ext (final sched))).
Proof.
  cbn zeta. destruct (sim_steps fsched) as [sched S]. exists sched. split; [apply (sim_ctl _ _ S)|].
  intros St l. apply (sim_ext _ _ S). intros i p w x _ E P. exfalso.
  rewrite (sim_ctl _ _ S) in St. unfold pool_status in St. cbn [with_ext ps_aborted ps_workers] in St.
  destruct (ps_aborted (final sched)); [discriminate|].
  destruct (forallb _ _) eqn:Fb; [|discriminate]. rewrite forallb_forall in Fb.
  specialize (Fb w (nth_error_In _ _ E)). unfold is_done, is_panicked in Fb. rewrite P in Fb. discriminate.
Qed.
End Sim.
