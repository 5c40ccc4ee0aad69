(** Facts about the whole process: what an exit means. *)
From Verif Require Export Main CliFacts.

Lemma exit_with_inv f0 ms code out f :
  exit_with f0 ms = Exited code out f ->
  f = f0 /\ out = fst (exit_report ms) /\ code = snd (exit_report ms).
Proof.
  unfold exit_with. destruct (exit_report ms) as [o c]. intros H. inversion H; subst. auto.
Qed.

(** How a process that exited got there *)
Inductive exit_path (fuel : nat) (wo : world) (a : cli_args) (sched : list nat) : list message -> fs -> Prop :=
| exit_config m : load_config (ca_config_file a) (wo_config wo) = Err m ->
    exit_path fuel wo a sched [m] (wo_fs wo)
| exit_schema cf ms : load_config (ca_config_file a) (wo_config wo) = Ok cf ->
    (let rc := merge_config (wo_ncpus wo) a cf in
     parse_schema (rc_schema_path rc) (wo_schema wo (rc_schema_path rc)) = Err ms) ->
    exit_path fuel wo a sched ms (wo_fs wo)
| exit_work cf s p f ms : load_config (ca_config_file a) (wo_config wo) = Ok cf ->
    (let rc := merge_config (wo_ncpus wo) a cf in
     parse_schema (rc_schema_path rc) (wo_schema wo (rc_schema_path rc)) = Ok s /\
     let c := cconfig_of rc in
     let n := rc_number_threads rc in
     p = steps (run_work fuel (wo_env wo) (wo_listing wo) c s) n (start n (WDir (rc_root_dir rc)) (wo_fs wo)) sched /\
     pool_status p = AllReturned /\
     finish_work fuel (wo_env wo) c s (rc_root_dir rc) p = Done (f, ms)) ->
    exit_path fuel wo a sched ms f.

Lemma qlc_exit fuel wo a sched code out f :
  qlc fuel wo a sched = Exited code out f ->
  exists ms, exit_path fuel wo a sched ms f /\ out = fst (exit_report ms) /\ code = snd (exit_report ms).
Proof.
  unfold qlc. destruct (load_config _ _) as [cf|m] eqn:Lc.
  - destruct (parse_schema _ _) as [s|ms] eqn:Ls.
    + match goal with |- context [pool_status ?p] => set (pl := p) end.
      destruct (pool_status pl) eqn:St; try discriminate.
      destruct (finish_work _ _ _ _ _ _) as [[f' ms]| |] eqn:Fw; try discriminate.
      intros H. apply exit_with_inv in H as (-> & -> & ->). exists ms. split; [|auto].
      apply (exit_work fuel wo a sched cf s pl f' ms Lc). cbn zeta. auto.
    + intros H. apply exit_with_inv in H as (-> & -> & ->). exists ms. split; [|auto].
      apply (exit_schema fuel wo a sched cf); auto.
  - intros H. apply exit_with_inv in H as (-> & -> & ->). exists [m]. split; [|auto].
    constructor; auto.
Qed.

(** The aggregate holds exactly the messages and globals of the completed items *)
Lemma agg_fold_messages {X} (r : X -> report) l a :
  rp_messages (fold_left (fun a x => agg_extend a (r x)) l a) = rp_messages a ++ flat_map (fun x => rp_messages (r x)) l.
Proof.
  revert a. induction l as [|x l IH]; intros a; cbn; [rewrite app_nil_r; auto|].
  rewrite IH. cbn. rewrite app_assoc. auto.
Qed.
Lemma agg_fold_globals {X} (r : X -> report) l a n :
  In n (rp_globals (fold_left (fun a x => agg_extend a (r x)) l a)) <->
  In n (rp_globals a) \/ exists x, In x l /\ In n (rp_globals (r x)).
Proof.
  revert a. induction l as [|x l IH]; intros a; cbn [fold_left].
  - split; [auto|]. intros [H|(x & [] & _)]; auto.
  - rewrite IH. cbn [agg_extend rp_globals]. rewrite In_sunion. cbn [In]. split.
    + intros [[H|H]|(y & I & H)]; eauto.
    + intros [H|(y & [->|I] & H)]; eauto.
Qed.
Lemma flat_map_flat_map {A B C} (f : B -> list C) (g : A -> list B) l :
  flat_map f (flat_map g l) = flat_map (fun x => flat_map f (g x)) l.
Proof. induction l; cbn; auto. rewrite flat_map_app, IHl. auto. Qed.
Lemma flat_map_ext' {A B} (f g : A -> list B) l : (forall x, f x = g x) -> flat_map f l = flat_map g l.
Proof. intros H. induction l; cbn; auto. rewrite H, IHl. auto. Qed.
Lemma aggregate_messages p : rp_messages (aggregate p) = flat_map (fun x => rp_messages (snd x)) (pool_log p).
Proof.
  unfold aggregate, pool_log. rewrite agg_fold_messages. cbn. rewrite flat_map_flat_map.
  apply flat_map_ext'. intros w. unfold worker_aggregate. rewrite agg_fold_messages. reflexivity.
Qed.
Lemma aggregate_globals p n :
  In n (rp_globals (aggregate p)) <-> exists x, In x (pool_log p) /\ In n (rp_globals (snd x)).
Proof.
  unfold aggregate, pool_log. rewrite agg_fold_globals. cbn. split.
  - intros [[]|(w & I & H)]. unfold worker_aggregate in H. apply agg_fold_globals in H.
    destruct H as [[]|(x & Ix & H)]. exists x. split; auto. apply in_flat_map. eauto.
  - intros (x & I & H). right. apply in_flat_map in I as (w & Iw & Ix). exists w. split; auto.
    unfold worker_aggregate. apply agg_fold_globals. eauto.
Qed.
Lemma aggregate_globals_nodup p : NoDup (rp_globals (aggregate p)).
Proof.
  unfold aggregate. assert (H : NoDup (rp_globals agg_new)) by constructor. revert H.
  generalize agg_new. induction (ps_workers p) as [|w l IH]; intros a H; cbn; auto.
  apply IH. cbn. apply NoDup_sunion; auto.
Qed.

(** A run that ends with code 0 has loaded its configuration and schema, all its workers returned,
    and neither they nor the globals step produced an error *)
Lemma load_config_err_level f read m : load_config f read = Err m -> is_error_level (ms_level m).
Proof.
  unfold load_config. intros H.
  destruct (read _); try discriminate; inversion H; subst; try (right; reflexivity); try (left; reflexivity).
  destruct f; inversion H; subst. left; reflexivity.
Qed.
Lemma parse_schema_err_level path r ms : parse_schema path r = Err ms ->
  exists m, ms = [m] /\ ms_level m = CompileError.
Proof.
  unfold parse_schema. intros H. destruct r as [j|e|e].
  - destruct (load_schema j); inversion H; subst. eexists. split; reflexivity.
  - inversion H; subst. eexists. split; reflexivity.
  - inversion H; subst. eexists. split; reflexivity.
Qed.
Lemma globals_err_level fuel e f c s root names f' m :
  compile_globals_file fuel e f c s root names = Done (f', Some m) -> is_error_level (ms_level m).
Proof.
  unfold compile_globals_file. destruct names; [discriminate|].
  destruct (compile_globals _ _ _ _ _) as [[contents|te]|]; try discriminate.
  - destruct (write_file _ _ _ _) as [f1 [err|]]; intros H; inversion H; subst. left; reflexivity.
  - intros H; inversion H; subst. right; reflexivity.
Qed.

Lemma qlc_success fuel wo a sched out f :
  qlc fuel wo a sched = Exited 0 out f ->
  exists cf s, load_config (ca_config_file a) (wo_config wo) = Ok cf /\
    let rc := merge_config (wo_ncpus wo) a cf in
    parse_schema (rc_schema_path rc) (wo_schema wo (rc_schema_path rc)) = Ok s /\
    let c := cconfig_of rc in
    let n := rc_number_threads rc in
    let p := steps (run_work fuel (wo_env wo) (wo_listing wo) c s) n
                   (start n (WDir (rc_root_dir rc)) (wo_fs wo)) sched in
    pool_status p = AllReturned /\
    (forall x m, In x (pool_log p) -> In m (rp_messages (snd x)) -> ms_level m = CompileWarning) /\
    compile_globals_file fuel (wo_env wo) (ps_ext p) c s (rc_root_dir rc) (rp_globals (aggregate p))
      = Done (f, None).
Proof.
  intros H. apply qlc_exit in H as (ms & Hp & _ & Hc).
  assert (Hz : forall m, In m ms -> ~ is_error_level (ms_level m)).
  { apply (proj1 (exit_code ms)). auto. }
  inversion Hp as [m Lc Em Ef|cf ms' Lc Ls Em Ef|cf s p f' ms' Lc Hw Em Ef]; subst.
  - exfalso. apply (Hz m); [cbn; auto|]. eapply load_config_err_level; eauto.
  - exfalso. cbn zeta in Ls. apply parse_schema_err_level in Ls as (m & -> & L).
    apply (Hz m); [cbn; auto|]. left; auto.
  - cbn zeta in Hw. destruct Hw as (Ls & Ep & St & Fw).
    exists cf, s. split; [auto|]. cbn zeta. split; [auto|]. rewrite <- Ep. split; [auto|].
    unfold finish_work in Fw.
    destruct (compile_globals_file _ _ _ _ _ _ _) as [[f1 [m|]]| |] eqn:Eg; try discriminate.
    + inversion Fw; subst. exfalso. apply (Hz m); [apply in_or_app; cbn; auto|].
      eapply globals_err_level; eauto.
    + inversion Fw; subst f1 ms. split; [|auto].
      intros x m Ix Im.
      assert (L : ~ is_error_level (ms_level m)).
      { apply Hz. rewrite aggregate_messages. apply in_flat_map. exists x. auto. }
      destruct (ms_level m); auto; exfalso; apply L; unfold is_error_level; auto.
Qed.
