(** C43: result files do not depend on the schedule. *)
From Verif Require Import RunFacts Worlds.

(** Each output is the compilation of the initial contents, and nothing else changes, for any number
    of threads and any schedule that processes every file *)
Theorem C43_outputs : forall fuel e ls c s root f n sched,
  names_ok ls -> separate e ls c root f ->
  let st := steps (run_work fuel e ls c s) n (start n (WDir root) f) sched in
  every_once ls root (completed st) ->
  (forall path, is_source ls root path -> exists f' r, compile_file fuel e f c s path = Done (f', r) /\
     ps_ext st (out_loc e path) = f' (out_loc e path)) /\
  (forall l, (forall path, is_source ls root path -> l <> out_loc e path) -> ps_ext st l = f l).
Proof. intros fuel e ls c s root f n sched N S st. exact (run_outputs fuel e ls c s root f N S n sched). Qed.
Print Assumptions C43_outputs.

(** Two such runs leave the same files and report the same results for the same items *)
Theorem C43_workers : forall fuel e ls c s root f n n' sched sched',
  names_ok ls -> separate e ls c root f ->
  let st := steps (run_work fuel e ls c s) n (start n (WDir root) f) sched in
  let st' := steps (run_work fuel e ls c s) n' (start n' (WDir root) f) sched' in
  every_once ls root (completed st) -> every_once ls root (completed st') ->
  Permutation (pool_log st) (pool_log st') /\ forall l, ps_ext st l = ps_ext st' l.
Proof.
  intros fuel e ls c s root f n n' sched sched' N S st st'. exact (run_same fuel e ls c s root f N S n n' sched sched').
Qed.
Print Assumptions C43_workers.

(** The whole process, globals file included: same files, same exit code *)
Theorem C43_process : forall fuel wo a sched sched' cf s code out f code' out' f',
  load_config (ca_config_file a) (wo_config wo) = Ok cf ->
  let rc := merge_config (wo_ncpus wo) a cf in
  let c := cconfig_of rc in
  parse_schema (rc_schema_path rc) (wo_schema wo (rc_schema_path rc)) = Ok s ->
  let pool sched := steps (run_work fuel (wo_env wo) (wo_listing wo) c s) (rc_number_threads rc)
                      (start (rc_number_threads rc) (WDir (rc_root_dir rc)) (wo_fs wo)) sched in
  names_ok (wo_listing wo) -> separate (wo_env wo) (wo_listing wo) c (rc_root_dir rc) (wo_fs wo) ->
  (forall p, order_ok (env_order (wo_env wo) p)) -> inputs_consistent s ->
  every_once (wo_listing wo) (rc_root_dir rc) (completed (pool sched)) ->
  every_once (wo_listing wo) (rc_root_dir rc) (completed (pool sched')) ->
  qlc fuel wo a sched = Exited code out f -> qlc fuel wo a sched' = Exited code' out' f' ->
  code = code' /\ forall l, f l = f' l.
Proof.
  intros fuel wo a sched sched' cf s code out f code' out' f' Lc rc c Ls pool0 N S Ho C E1 E2 H H'.
  destruct (C43_workers fuel (wo_env wo) (wo_listing wo) c s (rc_root_dir rc) (wo_fs wo) _ _ sched sched' N S E1 E2) as [Pm Hf].
  fold (pool0 sched) in Pm, Hf. fold (pool0 sched') in Pm, Hf.
  destruct (aggregate_same _ _ Pm) as [Am Ag].
  assert (K : forall sc co o g, qlc fuel wo a sc = Exited co o g ->
    exists m, compile_globals_file fuel (wo_env wo) (ps_ext (pool0 sc)) c s (rc_root_dir rc) (rp_globals (aggregate (pool0 sc))) = Done (g, m) /\
      co = snd (exit_report (rp_messages (aggregate (pool0 sc)) ++ match m with Some x => [x] | None => [] end))).
  { clear - Lc Ls. intros sc co o g H. apply qlc_exit in H as (ms & Hp & _ & ->).
    inversion Hp as [m Lc' Em Ef|cf' ms' Lc' Ls' Em Ef|cf' s' p f1 ms' Lc' Hw Em Ef]; subst; rewrite Lc in Lc'; [discriminate| |].
    - inversion Lc'; subst cf'. cbn zeta in Ls'. fold rc in Ls'. rewrite Ls in Ls'. discriminate.
    - inversion Lc'; subst cf'. cbn zeta in Hw. fold rc in Hw. destruct Hw as (Ls' & Ep & St & Fw).
      rewrite Ls in Ls'. inversion Ls'; subst s'. fold c in Ep, Fw. fold (pool0 sc) in Ep. subst p. unfold finish_work in Fw.
      destruct (compile_globals_file _ _ _ _ _ _ _) as [[g1 [m|]]| |]; try discriminate; inversion Fw; subst.
      + exists (Some m). auto.
      + exists None. rewrite app_nil_r. auto. }
  destruct (K _ _ _ _ H) as (m & G & ->). destruct (K _ _ _ _ H') as (m' & G' & ->).
  destruct (globals_file_same _ _ _ _ _ _ _ _ _ _ _ _ _ Ho C Hf Ag G G') as [Ff Em].
  split; auto.
  assert (Lv : forall sc g m, compile_globals_file fuel (wo_env wo) (ps_ext (pool0 sc)) c s (rc_root_dir rc) (rp_globals (aggregate (pool0 sc))) = Done (g, Some m) ->
    is_error_level (ms_level m)) by (intros; eapply globals_err_level; eauto).
  set (ms := rp_messages (aggregate (pool0 sched)) ++ _) in *. set (ms' := rp_messages (aggregate (pool0 sched')) ++ _) in *.
  assert (X : (exists x, In x ms /\ is_error_level (ms_level x)) <-> (exists x, In x ms' /\ is_error_level (ms_level x))).
  { subst ms ms'. split; intros (x & I & L); apply in_app_or in I as [I|I].
    - exists x. split; auto. apply in_or_app. left. apply (Permutation_in _ Am). auto.
    - destruct m' as [m'|]; [|rewrite (proj2 Em eq_refl) in I; destruct I]. exists m'. split; [apply in_or_app; cbn; auto|]. eapply Lv; eauto.
    - exists x. split; auto. apply in_or_app. left. apply (Permutation_in _ (Permutation_sym Am)). auto.
    - destruct m as [m|]; [|rewrite (proj1 Em eq_refl) in I; destruct I]. exists m. split; [apply in_or_app; cbn; auto|]. eapply Lv; eauto. }
  destruct (exit_code ms) as (_ & A & B). destruct (exit_code ms') as (_ & A' & B').
  destruct B as [B|B], B' as [B'|B']; try congruence.
  - apply A', X, A in B'. congruence.
  - apply A, X, A' in B. congruence.
Qed.
Print Assumptions C43_process.

(** The condition is needed: a.graphql imports b.graphql.d.ts, the output of b.graphql.  The exit code
    says which of the two was compiled first. *)
Definition two_listing : listing := fun d =>
  if String.eqb d "." then Ok [Ok {| de_name := "a.graphql"; de_kind := Ok EkFile |}; Ok {| de_name := "b.graphql"; de_kind := Ok EkFile |}]
  else Err "not found".
Definition output_import : string := "#import " +++ dq +++ "./b.graphql.d.ts" +++ dq.
Definition two_files : fs := fun l =>
  if String.eqb l "./a.graphql" then Ok output_import else if String.eqb l "./b.graphql" then Ok "Q"
  else if String.eqb l "././b.graphql.d.ts" then Err "not found" else Err "not found".
Definition two_env : env :=
  {| env_parse := fun c => if String.eqb c "Q" then Ok [tiny_query] else if String.eqb c output_import then Ok [tiny_query] else Err "syntax error";
     env_locate := fun p => if String.eqb p "././b.graphql.d.ts" then "./b.graphql.d.ts" else p;
     env_write := fun _ => WOk; env_similar := fun _ _ => false; env_order := fun _ => plain_order |}.
Definition first_a : list nat := repeat 0 60 ++ repeat 1 60 ++ repeat 0 60 ++ repeat 1 60 ++ repeat 0 60 ++ repeat 1 60.
(** worker 0 reads the directory and takes a.graphql, worker 1 takes and compiles b.graphql first *)
Definition first_b : list nat := repeat 0 8 ++ repeat 1 10 ++ repeat 0 60 ++ repeat 1 60 ++ repeat 0 60 ++ repeat 1 60 ++ repeat 0 60 ++ repeat 1 60.
Theorem C43_import_of_output : exists o1 g1 o2 g2,
  qlc 10 (tiny_world two_env two_listing two_files) (args_threads 2) first_a = Exited 1 o1 g1 /\
  qlc 10 (tiny_world two_env two_listing two_files) (args_threads 2) first_b = Exited 0 o2 g2.
Proof. do 4 eexists. split; vm_compute; reflexivity. Qed.
Print Assumptions C43_import_of_output.

(** Non-vacuity: a tree that satisfies the hypotheses, and a schedule that processes it *)
Lemma flat_source path : is_source flat_listing "." path -> path = "./x.graphql".
Proof.
  intros [p H]. assert (K : forall p x, in_tree flat_listing "." p x -> x = WDir "." \/ x = WFile "./x.graphql").
  { clear. induction 1 as [|p x i y N IH E]; auto.
    destruct IH as [->| ->]; cbn in E; destruct i as [|[|i]]; inversion E; auto. }
  destruct (K _ _ H) as [E|E]; inversion E. auto.
Qed.
Example C43_nonvacuous : names_ok flat_listing /\
  separate tiny_env flat_listing (cconfig_of (merge_config 4 no_args config_default)) "." (one_file "./x.graphql" "Q") /\
  is_source flat_listing "." "./x.graphql".
Proof.
  split; [|split].
  - intros d es l. unfold flat_listing. destruct (String.eqb d "."); [|discriminate].
    intros H; inversion H; subst; clear H. cbn. intros H; inversion H; subst; clear H. cbn.
    split; [|repeat constructor; intros []]. constructor; [|constructor]. repeat split; try discriminate.
    cbn. intuition discriminate.
  - split.
    + intros x y l Hx Hy R. apply flat_source in Hx. apply flat_source in Hy. subst. change (out_loc tiny_env "./x.graphql") with "./x.graphql.d.ts".
      destruct R as [|contents file' contents' n l t E I A]; [discriminate|].
      cbn in E. inversion E; subst contents. exfalso.
      assert (K : forall m n l t, ~ imports_at (cconfig_of (merge_config 4 no_args config_default)) m "Q" n l t).
      { clear. intros m n l t (q & (L & _) & (rest & Eq & _) & _). destruct n as [|[|n]]; cbn in L; inversion L; subst; discriminate. }
      destruct I as [[-> ->]|R]; [eapply K; eauto|].
      clear A. induction R as [n0 l0 target other A Eo|mid mc n0 l0 target other R IH A Eo]; [eapply K; eauto|auto].
    + intros x y Hx Hy _. apply flat_source in Hx. apply flat_source in Hy. subst. auto.
  - exists [0]. apply (node_child _ _ [] (WDir ".") 0); [constructor|reflexivity].
Qed.
Example C43_nonvacuous_runs : exists out f,
  qlc 10 (tiny_world tiny_env flat_listing (one_file "./x.graphql" "Q")) (args_threads 2) first_a = Exited 0 out f.
Proof. do 2 eexists. vm_compute. reflexivity. Qed.
