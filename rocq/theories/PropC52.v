(** C52: directories that cannot be read are reported. *)
From Verif Require Import RunFacts Worlds PropC43.

(** Every part of the listing of directory [d] can be read *)
Definition dir_readable (ls : listing) (d : string) : Prop :=
  exists es, ls d = Ok es /\ forall x, In x es -> exists de k, x = Ok de /\ de_kind de = Ok k.

Lemma scan_err dir es : forall acc, (exists l, scan_entries dir es acc = Ok l) <->
  forall x, In x es -> exists de k, x = Ok de /\ de_kind de = Ok k.
Proof.
  induction es as [|x es IH]; intros acc; cbn [scan_entries].
  - split; [intros _ x []|eauto].
  - destruct x as [de|err].
    2: { split; [intros [l H]; discriminate|]. intros H. destruct (H (Err err)) as (? & ? & ? & _); [cbn; auto|discriminate]. }
    destruct (de_kind de) as [k|err] eqn:Ek.
    2: { split; [intros [l H]; discriminate|]. intros H. destruct (H (Ok de)) as (d' & k & E & K); [cbn; auto|].
         inversion E; subst. congruence. }
    assert (G : forall acc', (exists l, scan_entries dir es acc' = Ok l) <->
      (forall x, In x (Ok de :: es) -> exists de k, x = Ok de /\ de_kind de = Ok k)).
    { intros acc'. rewrite IH. split.
      - intros H x [<-|I]; eauto.
      - intros H x I. apply H. cbn. auto. }
    destruct k; auto. destruct (path_extension _) as [ext|]; auto. destruct (String.eqb ext "graphql"); auto.
Qed.

(** The message of an unreadable directory *)
Lemma unreadable_report fuel e ls c s d f : ~ dir_readable ls d ->
  exists err, run_work fuel e ls c s (WDir d) f = Done (f, [], {| rp_messages := [io_message "read" err d]; rp_globals := [] |}).
Proof.
  intros N. cbn [run_work]. destruct (run_dir_entry ls d) as [l|err] eqn:E; [|eauto].
  exfalso. apply N. unfold run_dir_entry in E. destruct (ls d) as [es|err] eqn:Es; [|discriminate].
  exists es. split; auto. apply (scan_err d es []). eauto.
Qed.

(** Under every schedule: the record of a processed directory that could not be read carries an
    error naming it, and then the run does not exit with 0 *)
Theorem C52_reported : forall fuel e ls c s n root f sched d,
  let p := steps (run_work fuel e ls c s) n (start n (WDir root) f) sched in
  In (WDir d) (completed p) -> ~ dir_readable ls d ->
  exists err, In (io_message "read" err d) (rp_messages (aggregate p)).
Proof.
  intros fuel e ls c s n root f sched d p I N.
  unfold completed in I. apply in_map_iff in I. destruct I as ([[x ch] r] & Ex & I). cbn in Ex. subst x.
  destruct (log_genuine fuel e ls c s n root f sched _ _ _ I) as (g & g' & R).
  destruct (unreadable_report fuel e ls c s d g N) as [err E]. rewrite E in R. inversion R; subst.
  exists err. rewrite aggregate_messages. apply in_flat_map. eexists. split; [exact I|]. cbn. auto.
Qed.
Print Assumptions C52_reported.

Lemma success_processed fuel wo a sched out f' cf s :
  qlc fuel wo a sched = Exited 0 out f' ->
  load_config (ca_config_file a) (wo_config wo) = Ok cf ->
  let rc := merge_config (wo_ncpus wo) a cf in
  parse_schema (rc_schema_path rc) (wo_schema wo (rc_schema_path rc)) = Ok s ->
  let p := steps (run_work fuel (wo_env wo) (wo_listing wo) (cconfig_of rc) s) (rc_number_threads rc)
                 (start (rc_number_threads rc) (WDir (rc_root_dir rc)) (wo_fs wo)) sched in
  pool_status p = AllReturned /\
  forall d, In (WDir d) (completed p) -> ~ ~ dir_readable (wo_listing wo) d.
Proof.
  intros H Lc rc Ls p. apply qlc_success in H as (cf' & s' & Lc' & H). rewrite Lc in Lc'. inversion Lc'; subst cf'.
  cbn zeta in H. fold rc in H. destruct H as (Ls' & H). rewrite Ls in Ls'. inversion Ls'; subst s'.
  fold p in H. destruct H as (St & Lv & _). split; auto. intros d I N.
  destruct (C52_reported _ _ _ _ _ _ _ _ _ d I N) as [err M]. rewrite aggregate_messages in M. apply in_flat_map in M.
  destruct M as (x & Ix & Im). apply (Lv x _ Ix) in Im. discriminate.
Qed.

Lemma dir_readable_dec ls d : dir_readable ls d \/ ~ dir_readable ls d.
Proof.
  unfold dir_readable. destruct (ls d) as [es|err].
  2: { right. intros (es & H & _). discriminate. }
  destruct (scan_entries d es []) as [l|err] eqn:E.
  - left. exists es. split; auto. apply (scan_err d es []). eauto.
  - right. intros (es' & H & K). inversion H; subst es'. apply (scan_err d es []) in K. destruct K as [l K]. congruence.
Qed.

(** One thread, or no subdirectories: exit code 0 means that the whole tree was readable *)
Theorem C52_success : forall fuel wo a sched out f' cf s,
  qlc fuel wo a sched = Exited 0 out f' ->
  load_config (ca_config_file a) (wo_config wo) = Ok cf ->
  let rc := merge_config (wo_ncpus wo) a cf in
  parse_schema (rc_schema_path rc) (wo_schema wo (rc_schema_path rc)) = Ok s ->
  rc_number_threads rc = 1 \/ 0 < rc_number_threads rc /\ flat_tree (wo_listing wo) (rc_root_dir rc) ->
  forall p d, in_tree (wo_listing wo) (rc_root_dir rc) p (WDir d) -> dir_readable (wo_listing wo) d.
Proof.
  intros fuel wo a sched out f' cf s H Lc rc Ls T p d It.
  destruct (success_processed _ _ _ _ _ _ _ _ H Lc Ls) as [St Rd]. fold rc in St, Rd.
  assert (Ev : every_once (wo_listing wo) (rc_root_dir rc) (completed (steps (run_work fuel (wo_env wo) (wo_listing wo) (cconfig_of rc) s)
    (rc_number_threads rc) (start (rc_number_threads rc) (WDir (rc_root_dir rc)) (wo_fs wo)) sched))).
  { destruct T as [One|[Pos Fl]]; [eapply single_every; eauto|eapply flat_every; eauto]. }
  destruct Ev as (ps & N & F & A). destruct (Forall2_in_l _ _ _ _ F (A _ _ It)) as (x & Ix & Hx).
  destruct (dir_readable_dec (wo_listing wo) d) as [R|R]; auto.
  exfalso. rewrite <- (tree_fun _ _ _ _ _ It Hx) in Ix. eapply Rd; eauto.
Qed.
Print Assumptions C52_success.

(** Without the guard on the tree the report can be lost: the unreadable ./d is never processed *)
Definition blocked_listing : listing := fun d =>
  if String.eqb d "." then Ok [Ok {| de_name := "d"; de_kind := Ok EkDir |}]
  else if String.eqb d "./d" then Ok [Ok {| de_name := "e"; de_kind := Ok EkDir |}]
  else Err "permission denied".
Theorem C52_refuted : exists sched f,
  qlc 10 (tiny_world tiny_env blocked_listing (fun _ => Err "not found")) (args_threads 2) sched = Exited 0 "" f /\
  in_tree blocked_listing "." [0; 0] (WDir "./d/e") /\ ~ dir_readable blocked_listing "./d/e".
Proof.
  exists ([0;0;0] ++ [1;1;1;1] ++ [0;0;0] ++ [1] ++ repeat 0 8 ++ repeat 1 7 ++ repeat 0 4 ++ repeat 1 8 ++ repeat 0 8).
  eexists. split; [vm_compute; reflexivity|]. split.
  - apply (node_child _ _ [0] (WDir "./d") 0); [|reflexivity].
    apply (node_child _ _ [] (WDir ".") 0); [constructor|reflexivity].
  - intros (es & H & _). discriminate.
Qed.
Print Assumptions C52_refuted.

(** Non-vacuity: one thread, an unreadable directory two levels down: exit code 1 *)
Example C52_nonvacuous : exists out f,
  qlc 10 (tiny_world tiny_env blocked_listing (fun _ => Err "not found")) (args_threads 1) (repeat 0 60) = Exited 1 out f /\
  ~ dir_readable blocked_listing "./d/e" /\
  In (WDir "./d/e") (completed (steps (run_work 10 tiny_env blocked_listing (cconfig_of (merge_config 4 no_args config_default))
    (match parse_schema "" (SRDecoded tiny_schema) with Ok s => s | Err _ => [] end)) 1
    (start 1 (WDir ".") (fun _ => Err "not found")) (repeat 0 60))) .
Proof.
  do 2 eexists. split; [vm_compute; reflexivity|]. split; [intros (es & H & _); discriminate|]. vm_compute. auto 10.
Qed.
Example C52_flat_nonvacuous : exists out f,
  qlc 10 (tiny_world tiny_env flat_listing (one_file "./x.graphql" "Q")) (args_threads 1) (repeat 0 60) = Exited 0 out f.
Proof. do 2 eexists. vm_compute. reflexivity. Qed.
