(** C66: messages say what is wrong, with which names, in which file. *)
From Verif Require Import MsgFacts PoolProps ImportWorlds.

(** Every diagnostic is worded as the catalogue says: severity, headline and advice *)
Lemma join_ticks l : l <> [] -> tick +++ join "`, `" l +++ tick = listed l.
Proof.
  unfold listed. destruct l as [|a l]; [congruence|]. intros _. revert a. induction l as [|b l IH]; intros a; [reflexivity|].
  change (join "`, `" (a :: b :: l)) with (a +++ "`, `" +++ join "`, `" (b :: l)).
  change (List.map (fun n => tick +++ n +++ tick) (a :: b :: l))
    with ((tick +++ a +++ tick) :: List.map (fun n => tick +++ n +++ tick) (b :: l)).
  change (join ", " ((tick +++ a +++ tick) :: List.map (fun n => tick +++ n +++ tick) (b :: l)))
    with ((tick +++ a +++ tick) +++ ", " +++ join ", " (List.map (fun n => tick +++ n +++ tick) (b :: l))).
  rewrite <- IH. rewrite !app_assoc_s. reflexivity.
Qed.
Lemma listed_join l : tick +++ join "`, `" l +++ tick = listed l.
Proof. destruct l; [reflexivity|]. apply join_ticks. discriminate. Qed.

Theorem C66_ir : forall close contents file e,
  tells (ir_error_message close contents file e) (ir_problem e) /\
  advice_of (ir_error_message close contents file e) = advice close e.
Proof.
  intros close contents file e.
  assert (S : forall n l o, match similar_help close n l with Some h => h | None => o end = suggestion (filter (close n) l) o).
  { intros n l o. unfold similar_help, suggestion. destruct (filter (close n) l) as [|x y] eqn:E; auto.
    rewrite <- listed_join. rewrite !app_assoc_s. reflexivity. }
  split.
  - destruct e as [| | | | | |[]| | | |]; split; reflexivity.
  - destruct e as [| | | | | |[]| | | |]; try reflexivity; cbn [ir_error_message advice advice_of located_message ms_source];
      unfold loc_with_help; cbn; rewrite S; reflexivity.
Qed.
Print Assumptions C66_ir.
Theorem C66_warning : forall contents file w,
  tells (warning_message contents file w) (warning_problem w) /\
  advice_of (warning_message contents file w) = warning_advice w.
Proof.
  intros contents file [p l t|p f t]; split; try (split; reflexivity); try reflexivity.
  cbn [warning_message warning_advice advice_of located_message ms_source]. unfold loc_with_help; cbn [lo_help].
  f_equal. rewrite <- listed_join. rewrite !app_assoc_s. reflexivity.
Qed.
Print Assumptions C66_warning.

Theorem C66_others :
  (forall e, tells (ts_error_message e) (ts_problem e)) /\
  (forall e, tells (schema_error_message e) (schema_problem e)) /\
  (forall path err, tells (io_message "read" err path) (CannotRead path err)) /\
  (forall path err, tells (io_message "write" err path) (CannotWrite path err)).
Proof.
  split; [intros []; split; reflexivity|]. split; [intros []; split; reflexivity|].
  split; intros path err; split; reflexivity.
Qed.
Print Assumptions C66_others.

(** From the text alone the reader learns which problem it is and the names involved (as long as no name
    and no quoted system error contains a backquote): no two problems are told alike *)
Theorem C66_distinct : forall p q, ours p -> ours q -> Forall clean (details p) -> Forall clean (details q) ->
  told p = told q -> p = q.
Proof.
  intros p q Op Oq Cp Cq H. apply headline_inj; auto. apply flat_inj.
  rewrite <- !cut_ticks_said by (apply headline_clean; auto). unfold told in H. rewrite H. reflexivity.
Qed.
Print Assumptions C66_distinct.

(** What stands between backquotes are the names *)
Theorem C66_names : forall m p, tells m p -> ours p -> Forall clean (details p) ->
  quoted (cut_ticks (ms_text m)) = names p.
Proof.
  intros m p [_ T] O C. rewrite T. unfold told. rewrite cut_ticks_said by (apply headline_clean; auto). apply quoted_flat.
Qed.
Print Assumptions C66_names.

(** A document that cannot be used: severity, headline and advice *)
Theorem C66_document : forall e contents path m, parse_file e contents path = Err m ->
  exists p, tells m p /\ advice_of m = document_advice p /\
    match p with
    | NotGraphql err => env_parse e contents = Err err
    | NoDefinition => env_parse e contents = Ok []
    | SeveralDefinitions => exists d1 d2 ds, env_parse e contents = Ok (d1 :: d2 :: ds)
    | _ => False
    end.
Proof.
  intros e contents path m. unfold parse_file. destruct (env_parse e contents) as [[|d [|d2 ds]]|err] eqn:E; intros H; inversion H; subst.
  - exists NoDefinition. split; [split; reflexivity|auto].
  - exists SeveralDefinitions. split; [split; reflexivity|]. split; [reflexivity|eauto].
  - exists (NotGraphql err). split; [split; reflexivity|auto].
Qed.
Print Assumptions C66_document.

(** Full statement (false of the code, see C66_refuted_import): a file problem names the file concerned.
    Proved: so it does for reading and writing and for documents that do not parse; an imported operation is
    reported under the name of the importing file. *)
Theorem C66_file_partial : forall fuel e f c s path f' r m,
  order_ok (env_order e path) ->
  compile_file fuel e f c s path = Done (f', r) ->
  In m (match r with Ok rp => rp_messages rp | Err ms => ms end) ->
  exists p, tells m p /\ file_cause e f path p.
Proof.
  intros fuel e f c s path f' r m Ord H I. unfold compile_file, read_file in H.
  destruct (f (env_locate e path)) as [contents|err] eqn:E1.
  2: { inversion H; subst. destruct I as [<-|[]]. exists (CannotRead path err). split; [split; reflexivity|auto]. }
  destruct (parse_file e contents path) as [d|m0] eqn:E2.
  2: { inversion H; subst. destruct I as [<-|[]]. apply C66_document in E2 as (p & T & _ & C). exists p. split; auto.
       destruct p; cbn; try contradiction; eauto. destruct C as (d1 & d2 & ds & C). eauto 6. }
  destruct (add_imports fuel e f c path contents [] []) as [[im ms0]| |] eqn:E3; try discriminate.
  destruct (parse_foreign e path im ms0) as [frags ms1] eqn:E4.
  assert (Imp : In m ms1 -> exists p, tells m p /\ file_cause e f path p).
  { intros I1. apply (stage_messages _ _ _ _ _ _ Ord E4) in I1. destruct I1 as [I1|I1].
    - apply (stage_missing _ _ _ _ _ _ _ _ E3) in I1. destruct I1 as (F & C & n & l & t & err & _ & _ & R & ->).
      exists (CannotRead t err). split; [split; reflexivity|auto].
    - destruct I1 as (k & o & loc & Ik & Op & ->).
      destruct (stage_entry _ _ _ _ _ _ _ _ E3 _ _ _ Ik) as (F & n & l & t & Ed & R & _ & _ & ->).
      exists (NotAFragment path). split; [split; reflexivity|]. split; auto. exists t, o. split; auto. }
  assert (Wrn : forall ws, In m (List.map (warning_message contents path) ws) -> exists p, tells m p /\ file_cause e f path p).
  { intros ws Iw. apply in_map_iff in Iw as (w & <- & _). exists (warning_problem w). split; [apply C66_warning|].
    destruct w; exact Logic.I. }
  destruct (compile_definition _ _ d) as [[ws [op|errs]]|] eqn:E5; try discriminate.
  2: { inversion H; subst. apply in_app_or in I as [I|I]; auto. apply in_app_or in I as [I|I]; eauto.
       apply in_map_iff in I as (x & <- & _). exists (ir_problem x). split; [apply C66_ir|].
       destruct x as [| | | | | |[]| | | |]; exact Logic.I. }
  destruct (compile_ir _ _ _ op) as [co|te] eqn:E6.
  2: { inversion H; subst. apply in_app_or in I as [I|I].
       - apply in_app_or in I as [I|I]; eauto.
       - destruct I as [<-|[]]. exists (ts_problem te). split; [apply C66_others|]. destruct te; exact Logic.I. }
  destruct (write_file e f _ _) as [f2 [err|]] eqn:E7; inversion H; subst.
  - destruct I as [<-|[]]. exists (CannotWrite (with_extension path "graphql.d.ts") err). split; [split; reflexivity|].
    split; auto. unfold write_file in E7. unfold write_fails. destruct (env_write e _) as [|er|er part]; inversion E7; subst; eauto.
  - cbn in I. apply in_app_or in I as [I|I]; eauto.
Qed.
Print Assumptions C66_file_partial.

Lemma scan_err dir err es : forall acc, scan_entries dir es acc = Err err ->
  exists x, In x es /\ (x = Err err \/ exists d, x = Ok d /\ de_kind d = Err err).
Proof.
  induction es as [|[d|er] es IH]; intros acc H; cbn [scan_entries] in H; [discriminate| |].
  - assert (R : forall acc', scan_entries dir es acc' = Err err ->
      exists x, In x (Ok d :: es) /\ (x = Err err \/ exists d, x = Ok d /\ de_kind d = Err err)).
    { intros acc' H'. apply IH in H' as (x & I & X). exists x. split; [right|]; auto. }
    destruct (de_kind d) as [[| |]|er] eqn:E; eauto.
    + destruct (path_extension _) as [x|]; eauto. destruct (String.eqb x "graphql"); eauto.
    + inversion H; subst. exists (Ok d). split; [left; auto|]. right. eauto.
  - inversion H; subst. exists (Err err). split; [left|]; auto.
Qed.

(** Full statement for a run (false of the code, see C66_refuted_globals): every message of the report tells a
    problem that is there.  Proved: all but the failure to write the file of global types, which is reported
    under the name of the root directory. *)
Theorem C66_run_partial : forall fuel wo a sched code out f,
  (forall path, order_ok (env_order (wo_env wo) path)) ->
  qlc fuel wo a sched = Exited code out f ->
  exists ms, out = fst (exit_report ms) /\ code = snd (exit_report ms) /\
    forall m, In m ms -> exists p, tells m p /\
      (run_cause fuel wo p \/
       exists root err c, p = CannotWrite root err /\ write_fails (env_write (wo_env wo) (globals_path c root)) err).
Proof.
  intros fuel wo a sched code out f Ord H. apply qlc_exit in H as (ms & P & -> & ->). exists ms. split; auto. split; auto.
  intros m I. destruct P as [m0 L|cf ms L S|cf s p f ms L S].
  - destruct I as [<-|[]]. unfold load_config in L. destruct (wo_config wo _) as [c|err|err|err] eqn:E; try discriminate.
    + inversion L; subst. eexists (ConfigInvalid _ err). split; [split; reflexivity|]. left. exact E.
    + destruct (ca_config_file a) as [q|] eqn:Ea; inversion L; subst. exists (CannotRead q err). split; [split; reflexivity|].
      left. cbn. auto.
    + inversion L; subst. eexists (CannotRead _ err). split; [split; reflexivity|]. left. cbn. right. left. exact E.
  - cbn zeta in S. unfold parse_schema in S.
    destruct (wo_schema wo _) as [j|err|err] eqn:E.
    + destruct (load_schema j) as [s|er] eqn:El; inversion S; subst. destruct I as [<-|[]].
      exists (schema_problem er). split; [apply C66_others|]. left. destruct er; cbn; eauto 6.
    + inversion S; subst. destruct I as [<-|[]]. eexists (CannotRead _ err). split; [split; reflexivity|].
      left. cbn. right. right. left. exact E.
    + inversion S; subst. destruct I as [<-|[]]. eexists (SchemaNotJson err). split; [split; reflexivity|]. left. cbn. eauto.
  - cbn zeta in S. destruct S as (Ls & Ep & St & Fw). unfold finish_work in Fw.
    set (c := cconfig_of (merge_config (wo_ncpus wo) a cf)) in *.
    assert (Ag : In m (rp_messages (aggregate p)) -> exists q, tells m q /\ run_cause fuel wo q).
    { intros Im. rewrite aggregate_messages in Im. apply in_flat_map in Im as ([[w ch] r] & Ix & Im). subst p.
      apply log_genuine in Ix as (g & g' & Ru). cbn [snd] in Im. unfold run_work in Ru. destruct w as [path|path]; cycle 1.
      - destruct (run_dir_entry (wo_listing wo) path) as [more|err] eqn:Er; inversion Ru; subst; cbn in Im; [contradiction|].
        destruct Im as [<-|[]]. exists (CannotRead path err). split; [split; reflexivity|].
        cbn. right. right. right. left. unfold run_dir_entry in Er. unfold unlistable.
        destruct (wo_listing wo path) as [es|er]; [|inversion Er; auto]. apply scan_err in Er as (x & Ix & Er). right. eauto.
      - destruct (compile_file _ _ _ _ _ _) as [[f1 r1]| |] eqn:Ec; try discriminate.
        assert (Im1 : In m (match r1 with Ok rp => rp_messages rp | Err ms => ms end)).
        { destruct r1; inversion Ru; subst; auto. }
        destruct (C66_file_partial _ _ _ _ _ _ _ _ _ (Ord path) Ec Im1) as (q & T & Ca). exists q. split; auto.
        destruct q; cbn in Ca |- *; auto; try contradiction.
        + do 4 right. exists c, s, path, g, f1, r1. auto.
        + tauto.
        + destruct Ca as (x & _ & Ca); eauto.
        + destruct Ca as (x & _ & Ca); eauto.
        + destruct Ca as (x & d1 & d2 & ds & _ & Ca); eauto 6.
        + destruct Ca as (_ & t & o & _ & Ca); eauto. }
    destruct (compile_globals_file _ _ _ _ _ _ _) as [[f1 [gm|]]| |] eqn:Eg; inversion Fw; subst ms.
    + apply in_app_or in I as [I|[<-|[]]].
      * destruct (Ag I) as (q & T & C). eauto.
      * unfold compile_globals_file in Eg. destruct (rp_globals (aggregate p)) as [|n0 ns]; [discriminate|].
        destruct (compile_globals _ _ _ _ _) as [[contents|te]|]; try discriminate.
        -- destruct (write_file _ _ _ _) as [f2 [err|]] eqn:E7; inversion Eg; subst.
           exists (CannotWrite (rc_root_dir (merge_config (wo_ncpus wo) a cf)) err). split; [split; reflexivity|]. right.
           exists (rc_root_dir (merge_config (wo_ncpus wo) a cf)), err, c. split; [reflexivity|].
           unfold write_file in E7. unfold write_fails.
           destruct (env_write (wo_env wo) (globals_path c _)) as [|er|er part]; inversion E7; subst; eauto.
        -- inversion Eg; subst. exists (ts_problem te). split; [apply C66_others|]. left. destruct te; exact Logic.I.
    + destruct (Ag I) as (q & T & C). eauto.
Qed.
Print Assumptions C66_run_partial.

(** The file of global types cannot be written: the message blames the root directory, to which nothing was
    to be written *)
Definition shade_schema : jschema :=
  [object_type "Query" [plain_field "a" (nonnull (named_type "ENUM" "Shade"))];
   {| jt_kind := "ENUM"; jt_name := "Shade"; jt_description := None; jt_possible_types := None;
      jt_input_fields := None; jt_fields := None; jt_enum_values := Some ["DARK"; "LIGHT"] |}].
Definition stuck_env : env :=
  {| env_parse := env_parse tiny_env; env_locate := fun p => p;
     env_write := fun p => if String.eqb p "./graphql-globals.ts" then WFailOpen "permission denied" else WOk;
     env_similar := fun _ _ => false; env_order := fun _ => plain_order |}.
Definition stuck_world : world :=
  {| wo_env := stuck_env; wo_listing := flat_listing; wo_ncpus := 4; wo_config := fun _ => CRNotFound "not found";
     wo_schema := fun _ => SRDecoded shade_schema; wo_fs := one_file "./x.graphql" "Q" |}.
Theorem C66_refuted_globals : exists out f,
  qlc 10 stuck_world (args_threads 1) (repeat 0 60) = Exited 1 out f /\
  out = fst (exit_report [io_message "write" "permission denied" "."]) /\
  tells (io_message "write" "permission denied" ".") (CannotWrite "." "permission denied") /\
  env_write stuck_env "." = WOk /\ ~ run_cause 10 stuck_world (CannotWrite "." "permission denied").
Proof.
  do 2 eexists. split; [vm_compute; reflexivity|]. split; [vm_compute; reflexivity|]. split; [split; reflexivity|].
  split; [reflexivity|]. intros [X|(p & X)]; discriminate.
Qed.
Print Assumptions C66_refuted_globals.

(** An import of an operation: the message says that the importing file, which holds a fragment, is none *)
Definition pointless : fs := files [("./a.graphql", import_line "b.graphql" +++ "F"); ("./b.graphql", "Q")].
Theorem C66_refuted_import : exists f' rp m,
  compile_file 10 letter_env pointless tiny_config tiny_loaded "./a.graphql" = Done (f', Ok rp) /\
  rp_messages rp = [m] /\ tells m (NotAFragment "./a.graphql") /\
  holds_fragment letter_env (import_line "b.graphql" +++ "F") tiny_fragment /\ holds_operation letter_env "Q".
Proof.
  do 3 eexists. split; [vm_compute; reflexivity|]. split; [cbn [rp_messages]; reflexivity|].
  split; [split; vm_compute; reflexivity|]. split; [reflexivity|]. eexists. reflexivity.
Qed.
Print Assumptions C66_refuted_import.

(** Non-vacuity: names, distinctness, and a run with a message *)
Example C66_example :
  told (DeprecatedField "age" "User") = "use of deprecated field `age` on type `User`" /\
  names (DeprecatedField "age" "User") = ["age"; "User"] /\ ours (DeprecatedField "age" "User") /\
  Forall clean (details (DeprecatedField "age" "User")) /\
  advice (fun _ _ => true) (EUnknownField "User" "nam" p0 ["name"; "age"]) =
    Some "Check the fields of `User`. Did you mean one of the following: `name`, `age`?".
Proof.
  repeat split; try discriminate. repeat constructor; apply tickless_clean; reflexivity.
Qed.
(** With backquotes in names texts may coincide: GraphQL names have none *)
Example C66_backquote : exists p q, p <> q /\ told p = told q /\ ours p /\ ours q.
Proof.
  exists (DeprecatedField "a` on type `b" "c"), (DeprecatedField "a" "b` on type `c"). repeat split; discriminate.
Qed.
Example C66_nonvacuous : exists out f m,
  (forall path, order_ok (env_order tiny_env path)) /\
  qlc 10 (tiny_world tiny_env flat_listing (one_file "./x.graphql" "!")) (args_threads 1) (repeat 0 60) = Exited 1 out f /\
  compile_file 10 tiny_env (one_file "./x.graphql" "!") tiny_config tiny_loaded "./x.graphql" = Done (one_file "./x.graphql" "!", Err [m]) /\
  tells m (NotGraphql "syntax error").
Proof.
  do 3 eexists. split; [intros path p A l; apply Permutation_refl|]. split; [vm_compute; reflexivity|]. split; [reflexivity|].
  split; reflexivity.
Qed.
