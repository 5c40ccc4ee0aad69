(** Properties of the pool as qlc uses it. *)
From Verif Require Export TreeFacts Worlds.
From Coq Require Import Lia.

Lemma Forall2_In_l {A B} (P : A -> B -> Prop) l l' x : Forall2 P l l' -> In x l -> exists y, P x y.
Proof. induction 1; intros I; [destruct I|]. destruct I as [->|I]; eauto. Qed.
Lemma Forall2_len {A B} (P : A -> B -> Prop) l l' : Forall2 P l l' -> List.length l = List.length l'.
Proof. induction 1; cbn; auto. Qed.

(** Without work left nothing can panic or abort *)
Lemma quiet_steps {W G R} (run : runner W G R) n s sched :
  queued (ps_queue s) = [] -> hands s = [] ->
  let s' := steps run n s sched in
  List.map is_panicked (ps_workers s') = List.map is_panicked (ps_workers s) /\ ps_aborted s' = ps_aborted s.
Proof.
  intros Q H. cbn zeta.
  assert (I : queued (ps_queue (steps run n s sched)) = [] /\ hands (steps run n s sched) = [] /\
    List.map is_panicked (ps_workers (steps run n s sched)) = List.map is_panicked (ps_workers s) /\
    ps_aborted (steps run n s sched) = ps_aborted s).
  { remember (List.map is_panicked (ps_workers s)) as P. remember (ps_aborted s) as A.
    destruct A eqn:EA.
    - assert (E : steps run n s sched = s).
      { clear - HeqA. induction sched as [|i l IH]; auto.
        change (steps run n s (i :: l)) with (steps run n (step run n s i) l). unfold step at 1. rewrite <- HeqA. auto. }
      rewrite E. auto.
    - apply (steps_inv run n (fun s => queued (ps_queue s) = [] /\ hands s = [] /\ List.map is_panicked (ps_workers s) = P /\ ps_aborted s = false)); auto.
      clear. intros q nw nq l1 w l2 g w' q' nw' nq' g' ab (Q & H & E & _) T.
      unfold hands in *. cbn [mkp ps_queue ps_workers ps_aborted] in *. rewrite flat_map_app in *. cbn [flat_map] in *.
      apply app_eq_nil in H as [H1 H]. apply app_eq_nil in H as [Hw H2]. rewrite H1, H2, map_app in *. cbn [List.map app] in *.
      inv_trans T; cbn [mkw wk_pc hand is_panicked] in *; try discriminate; auto.
      + rewrite queued_app, Q. auto. }
  tauto.
Qed.

Section Instance.
  Variables (fuel : nat) (e : env) (ls : listing) (c : cconfig) (s : schema) (n : nat) (root : string) (f : fs).
  Notation run := (run_work fuel e ls c s).
  Notation final sched := (steps run n (start n (WDir root) f) sched).

  Lemma every_iff_empty sched : let st := final sched in
    pool_status st = AllReturned -> (every_once ls root (completed st) <-> queued (ps_queue st) = []).
  Proof.
    cbn zeta. intros E. destruct (tree_positions fuel e ls c s root f n sched) as (ps & H1 & H2 & H3 & H4).
    split.
    - intros (ps' & N & F & A). destruct (queued (ps_queue (final sched))) as [|x l] eqn:Q; auto. exfalso.
      destruct (H4 x (or_introl eq_refl)) as (p & Np & Ip).
      assert (I : incl (p :: ps) ps').
      { intros q [<-|I]; [eapply A; eauto|]. destruct (Forall2_In_l _ _ _ _ H2 I) as [y Hy]. eapply A; eauto. }
      apply NoDup_incl_length in I; [|constructor; auto].
      apply Forall2_len in H2. apply Forall2_len in F. cbn in I. lia.
    - intros Q. exists ps. split; [auto|split; [auto|exact (H3 Q E)]].
  Qed.

  Lemma flat_every : 0 < n -> flat_tree ls root -> forall sched, let st := final sched in
    pool_status st = AllReturned -> every_once ls root (completed st).
  Proof.
    intros Hn F sched st E. apply every_iff_empty; auto.
    apply (flat_complete run n (dir_kids ls) (run_work_kids fuel e ls c s) (WDir root) f sched); auto.
    apply Forall_forall. exact F.
  Qed.

  Lemma complete_iff_flat : 2 <= n -> finite (dir_kids ls) (WDir root) -> tree_completes run ls root ->
    ((forall sched, let st := final sched in pool_status st = AllReturned -> every_once ls root (completed st)) <->
     flat_tree ls root).
  Proof.
    intros Hn F T. split.
    - intros H x I. destruct (dir_kids ls x) as [|y l] eqn:E; auto. exfalso.
      destruct (tree_gsize fuel e ls c s root F T) as [m Hm].
      apply in_split in I as (xs & ys & Ex).
      destruct (lossy run n (dir_kids ls) (WDir root) x xs ys f m Hn Ex Hm) as (st & [sched R1] & Es & Q).
      subst st. apply (every_iff_empty sched Es) in H; auto. rewrite Q in H. congruence.
    - intros H. apply flat_every; auto. lia.
  Qed.

  Lemma single_every sched : n = 1 -> pool_status (final sched) = AllReturned -> every_once ls root (completed (final sched)).
  Proof.
    intros E1 E. apply every_iff_empty; auto. apply single_complete; auto.
  Qed.
  Lemma single_ends : n = 1 -> finite (dir_kids ls) (WDir root) -> tree_completes run ls root ->
    exists N, forall sched, N <= count_occ Nat.eq_dec sched 0 -> pool_status (final sched) = AllReturned.
  Proof.
    intros E1 F T. destruct (tree_gsize fuel e ls c s root F T) as [m Hm].
    eapply single_terminates; eauto. exact (run_work_kids fuel e ls c s).
  Qed.
  Lemma can_finish sched : finite (dir_kids ls) (WDir root) -> tree_completes run ls root ->
    exists more, pool_status (final (sched ++ more)) = AllReturned.
  Proof.
    intros F T. destruct (tree_gsize fuel e ls c s root F T) as [m Hm].
    destruct (no_deadlock run n (dir_kids ls) (run_work_kids fuel e ls c s) (WDir root) f sched m Hm) as (st & [more R1] & E).
    exists more. rewrite steps_app, R1. auto.
  Qed.
  Lemma once sched : exists ps, NoDup ps /\ Forall2 (in_tree ls root) ps (completed (final sched)).
  Proof. destruct (tree_positions fuel e ls c s root f n sched) as (ps & H1 & H2 & _). eauto. Qed.

  Lemma log_genuine sched x ch r : In (x, ch, r) (pool_log (final sched)) ->
    exists g g', run x g = Done (g', ch, r).
  Proof.
    revert x ch r.
    apply (steps_inv run n (fun st => forall x ch r, In (x, ch, r) (pool_log st) -> exists g g', run x g = Done (g', ch, r))).
    - intros q nw nq l1 w l2 g w' q' nw' nq' g' ab H T x ch r.
      unfold pool_log in *. cbn [mkp ps_workers] in *. rewrite flat_map_app. cbn [flat_map]. specialize (H x ch r).
      rewrite flat_map_app in H. cbn [flat_map] in H.
      inv_trans T; cbn [mkw wk_log] in *; auto.
      intros I. rewrite !in_app_iff in *. destruct I as [I|[[I|[I|[]]]|I]]; auto. inversion I; subst. eauto.
    - intros x ch r I. exfalso. unfold pool_log, start in I. cbn in I. clear - I. induction n; cbn in I; auto.
  Qed.

  Lemma panic_final sched more :
    existsb is_panicked (ps_workers (final sched)) = true ->
    pool_status (final (sched ++ more)) <> AllReturned /\
    List.map is_done (ps_workers (final (sched ++ more))) = List.map is_done (ps_workers (final sched)).
  Proof.
    intros P. rewrite steps_app.
    destruct (after_panic run n (final sched) more) as [P' D]; auto.
    { apply flags_steps, flags_start. }
    split; auto. intros E. apply returned_hands in E as (_ & E & _).
    apply existsb_exists in P' as (w & I & Pw). assert (X : In w (filter is_panicked (ps_workers (steps run n (final sched) more)))).
    { apply filter_In. auto. }
    rewrite E in X. destruct X.
  Qed.
  Lemma panic_single sched : n = 1 -> existsb is_panicked (ps_workers (final sched)) = true ->
    pool_status (final sched) = SomePanicked \/ pool_status (final sched) = Aborted.
  Proof.
    intros E1 P. assert (L : flags n (final sched)) by (apply flags_steps, flags_start). destruct L as [L _].
    unfold pool_status. destruct (ps_aborted (final sched)); auto. rewrite P.
    destruct (ps_workers (final sched)) as [|w [|]]; cbn in L; try lia. cbn in P. rewrite orb_false_r in P.
    cbn. rewrite P, orb_true_r. auto.
  Qed.
End Instance.

(** A directory with a single file whose import line has no closing quote, two threads *)
Definition bad_env : env :=
  {| env_parse := fun _ => Ok [tiny_query]; env_locate := fun p => p; env_write := fun _ => WOk;
     env_similar := fun _ _ => false; env_order := fun _ => plain_order |}.
Definition bad_world : world := tiny_world bad_env flat_listing (one_file "./x.graphql" import_start).

(** The process is running as long as its pool is *)
Lemma qlc_running fuel wo a sched cf rc s n root :
  load_config (ca_config_file a) (wo_config wo) = Ok cf -> merge_config (wo_ncpus wo) a cf = rc ->
  parse_schema (rc_schema_path rc) (wo_schema wo (rc_schema_path rc)) = Ok s ->
  rc_number_threads rc = n -> rc_root_dir rc = root ->
  pool_status (steps (run_work fuel (wo_env wo) (wo_listing wo) (cconfig_of rc) s) n (start n (WDir root) (wo_fs wo)) sched)
    = StillRunning ->
  qlc fuel wo a sched = Running.
Proof. intros E1 E2 E3 E4 E5 E6. unfold qlc. rewrite E1, E2, E3. cbn zeta. rewrite E4, E5, E6. reflexivity. Qed.

Lemma panic_hangs : exists sched, forall more, qlc 10 bad_world (args_threads 2) (sched ++ more) = Running.
Proof.
  exists (repeat 0 12). intros more.
  eapply qlc_running; [vm_compute; reflexivity|vm_compute; reflexivity|vm_compute; reflexivity|vm_compute; reflexivity|vm_compute; reflexivity|].
  match goal with |- context [run_work ?a ?b ?c ?d ?e] => set (run := run_work a b c d e) end.
  set (st := steps run 2 (start 2 (WDir ".") (wo_fs bad_world)) (repeat 0 12)).
  assert (Est : exists g, st = mkp [] 0 0 [mkw PPanicked false false [(WDir ".", [WFile "./x.graphql"], {| rp_messages := []; rp_globals := [] |})];
                                 fresh_worker] g false).
  { eexists. vm_compute. reflexivity. }
  destruct Est as [g Est].
  rewrite steps_app. fold st.
  assert (P : existsb is_panicked (ps_workers st) = true) by (rewrite Est; reflexivity).
  destruct (after_panic run 2 st more) as [_ D]; auto.
  { unfold st. apply flags_steps, flags_start. }
  clearbody run. clearbody st.
  destruct (quiet_steps run 2 st more) as [P2 A]; [rewrite Est; reflexivity|rewrite Est; reflexivity|].
  unfold pool_status. rewrite A. rewrite Est in D, P2. cbn in D, P2.
  replace (ps_aborted st) with false by (rewrite Est; reflexivity).
  rewrite <- Est in *.
  generalize dependent (ps_workers (steps run 2 st more)). intros ws D P2.
  destruct ws as [|w1 [|w2 [|]]]; try discriminate.
  cbn in D, P2. injection D as D1 D2. injection P2 as P1 P2. cbn. rewrite D1, D2, P1, P2. reflexivity.
Qed.
