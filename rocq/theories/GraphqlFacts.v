(** The stages of compiling one file. *)
From Verif Require Export Graphql BaseFacts.

(** The context in which a file is compiled *)
Definition file_ctx (e : env) (c : cconfig) (s : schema) (path : string) (frags : amap string fragdef) : ctx :=
  {| cx_schema := s; cx_deprecations := cc_deprecations c; cx_frags := frags;
     cx_order := suborder (env_order e path) [1; 0] |}.

(** All stages before the write succeed, giving messages [ms] and output [co] *)
Definition file_compiles (fuel : nat) (e : env) (f : fs) (c : cconfig) (s : schema) (path : string)
           (ms : list message) (co : compiled) : Prop :=
  exists contents d im ms0 frags ms1 ws op,
    f (env_locate e path) = Ok contents /\
    parse_file e contents path = Ok d /\
    add_imports fuel e f c path contents [] [] = Done (im, ms0) /\
    parse_foreign e path im ms0 = (frags, ms1) /\
    compile_definition fuel (file_ctx e c s path frags) d = Some (ws, Ok op) /\
    compile_ir c (suborder (env_order e path) [2; 0]) s op = Ok co /\
    ms = ms1 ++ List.map (warning_message contents path) ws.

Lemma compile_file_ok fuel e f c s path f' r :
  compile_file fuel e f c s path = Done (f', Ok r) <->
  exists ms co, file_compiles fuel e f c s path ms co /\
    write_file e f (with_extension path "graphql.d.ts") (co_contents co) = (f', None) /\
    r = {| rp_messages := ms; rp_globals := co_globals co |}.
Proof.
  unfold compile_file, file_compiles, read_file, file_ctx. split.
  - destruct (f (env_locate e path)) as [contents|err] eqn:E1; [|discriminate].
    destruct (parse_file e contents path) as [d|m] eqn:E2; [|discriminate].
    destruct (add_imports fuel e f c path contents [] []) as [[im ms0]| |] eqn:E3; try discriminate.
    destruct (parse_foreign e path im ms0) as [frags ms1] eqn:E4.
    destruct (compile_definition _ _ d) as [[ws [op|errs]]|] eqn:E5; try discriminate.
    destruct (compile_ir _ _ _ op) as [co|te] eqn:E6; [|discriminate].
    destruct (write_file e f _ _) as [f2 [err|]] eqn:E7; [discriminate|].
    intros H. inversion H; subst. exists (ms1 ++ List.map (warning_message contents path) ws), co.
    split; [|auto]. exists contents, d, im, ms0, frags, ms1, ws, op. auto 10.
  - intros (ms & co & (contents & d & im & ms0 & frags & ms1 & ws & op & E1 & E2 & E3 & E4 & E5 & E6 & ->) & E7 & ->).
    rewrite E1, E2, E3, E4, E5, E6, E7. reflexivity.
Qed.

Lemma compile_file_err fuel e f c s path f' ms :
  compile_file fuel e f c s path = Done (f', Err ms) ->
  f' = f /\ ms <> [] \/
  exists ms0 co err, file_compiles fuel e f c s path ms0 co /\
    write_file e f (with_extension path "graphql.d.ts") (co_contents co) = (f', Some err) /\
    ms = [io_message "write" err (with_extension path "graphql.d.ts")].
Proof.
  unfold compile_file, file_compiles, read_file, file_ctx.
  destruct (f (env_locate e path)) as [contents|err] eqn:E1.
  2: { intros H; inversion H; subst. left. split; auto. discriminate. }
  destruct (parse_file e contents path) as [d|m] eqn:E2.
  2: { intros H; inversion H; subst. left. split; auto. discriminate. }
  destruct (add_imports fuel e f c path contents [] []) as [[im ms0]| |] eqn:E3; try discriminate.
  destruct (parse_foreign e path im ms0) as [frags ms1] eqn:E4.
  destruct (compile_definition _ _ d) as [[ws [op|errs]]|] eqn:E5; try discriminate.
  2: { intros H. injection H as <- <-. left. split; auto.
       assert (errs <> []) as Ne.
       { destruct d as [op|fd]; cbn [compile_definition] in E5.
         - unfold build_from_operation in E5. destruct op as [p ss|k p n vs ds ss]; [inversion E5; discriminate|].
           destruct (new_ctrav _ _ _); [|inversion E5; discriminate].
           destruct (collect _ _ _ _ _ _) as [[[? ?] [|? ?]]|]; try discriminate; [|inversion E5; discriminate].
           destruct (collection_of _ _ _); [|inversion E5; discriminate].
           destruct (try_build_variable_ir _ _); inversion E5; discriminate.
         - destruct (new_ctrav _ _ _); [|inversion E5; discriminate].
           destruct (collect _ _ _ _ _ _) as [[[? ?] [|? ?]]|]; try discriminate; [|inversion E5; discriminate].
           destruct (collection_of _ _ _); inversion E5; discriminate. }
       destruct errs; [congruence|]. destruct ms1; discriminate. }
  destruct (compile_ir _ _ _ op) as [co|te] eqn:E6.
  2: { intros H. inversion H; subst. left. split; auto. intros X. symmetry in X. eapply app_cons_not_nil. eauto. }
  destruct (write_file e f _ _) as [f2 [err|]] eqn:E7; [|discriminate].
  intros H. inversion H; subst. right. exists (ms1 ++ List.map (warning_message contents path) ws), co, err.
  split; [|auto]. exists contents, d, im, ms0, frags, ms1, ws, op. auto 10.
Qed.

Lemma write_file_other e f path contents f' r l :
  write_file e f path contents = (f', r) -> l <> env_locate e path -> f' l = f l.
Proof.
  intros H N. apply String.eqb_neq in N. unfold write_file in H.
  destruct (env_write e path); inversion H; subst; auto; rewrite N; auto.
Qed.
Lemma write_file_ok e f path contents f' :
  write_file e f path contents = (f', None) -> env_write e path = WOk /\ f' (env_locate e path) = Ok contents.
Proof.
  unfold write_file. destruct (env_write e path); intros H; inversion H; subst. rewrite String.eqb_refl. auto.
Qed.
Lemma write_file_err e f path contents f' err :
  write_file e f path contents = (f', Some err) ->
  f' = f /\ env_write e path = WFailOpen err \/
  exists partial, env_write e path = WFailMid err partial /\ f' (env_locate e path) = Ok partial.
Proof.
  unfold write_file. destruct (env_write e path); intros H; inversion H; subst; auto.
  right. exists partial. rewrite String.eqb_refl. auto.
Qed.
