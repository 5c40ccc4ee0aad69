(** More fuel, and runs that end. *)
From Verif Require Export RunFacts PoolProps ImportProps DocDesc SpecEnd PropC12.
From Verif Require Import FineSim.

(** ** More fuel changes nothing *)
Lemma imp_loop_mono e f c (r r' : walker) : (forall a b im ms, r a b im ms <> Diverges -> r' a b im ms = r a b im ms) ->
  forall ls file n im ms, imp_loop r e f c file n ls im ms <> Diverges -> imp_loop r' e f c file n ls im ms = imp_loop r e f c file n ls im ms.
Proof.
  intros H ls. induction ls as [|line ls IH]; intros file n im ms; [reflexivity|]. cbn [imp_loop].
  destruct (is_empty line || is_empty (trim line)); [apply IH|].
  destruct (negb (starts_with import_start line)). { destruct (starts_with "#" line); [apply IH|reflexivity]. }
  destruct (import_target c line (path_pop file)) as [t|]; [|reflexivity].
  destruct (read_file e f t) as [other|m]; [|apply IH]. intros N.
  assert (X : r t other im ms <> Diverges) by (intros E; apply N; rewrite E; reflexivity).
  rewrite (H _ _ _ _ X). destruct (r t other im ms) as [[im' ms']| |]; try reflexivity. apply IH. exact N.
Qed.
Lemma add_imports_mono e f c : forall n m file contents im ms, n <= m -> add_imports n e f c file contents im ms <> Diverges ->
  add_imports m e f c file contents im ms = add_imports n e f c file contents im ms.
Proof.
  induction n as [|n IH]; intros m file contents im ms L N; [exfalso; apply N; reflexivity|]. destruct m as [|m]; [lia|].
  rewrite !add_imports_S in *. apply imp_loop_mono; [|exact N]. intros a b im' ms' X. apply IH; [lia|exact X].
Qed.
Lemma compile_file_mono n m e f c s path : n <= m -> compile_file n e f c s path <> Diverges ->
  compile_file m e f c s path = compile_file n e f c s path.
Proof.
  intros L. unfold compile_file. destruct (read_file e f path) as [contents|]; [|reflexivity].
  destruct (parse_file e contents path) as [d|]; [|reflexivity].
  destruct (add_imports n e f c path contents [] []) as [[im ms]| |] eqn:E; intros N.
  - rewrite (add_imports_mono e f c n m path contents [] [] L) by (rewrite E; discriminate). rewrite E.
    destruct (parse_foreign e path im ms) as [frags ms1].
    destruct (compile_definition n _ d) as [r|] eqn:Ed; [|exfalso; apply N; reflexivity].
    rewrite (compile_definition_mono _ _ _ _ _ L Ed). reflexivity.
  - rewrite (add_imports_mono e f c n m path contents [] [] L) by (rewrite E; discriminate). rewrite E. reflexivity.
  - exfalso. apply N. reflexivity.
Qed.
Lemma fold_res_mono {X St E} (f g : X -> St -> option (res E St)) : (forall x st r, f x st = Some r -> g x st = Some r) ->
  forall l st r, fold_res f l st = Some r -> fold_res g l st = Some r.
Proof.
  intros H l. induction l as [|x l IH]; intros st r; cbn [fold_res]; auto.
  destruct (f x st) as [[st'|er]|] eqn:Ef; [| |discriminate]; rewrite (H _ _ _ Ef); auto.
Qed.
Lemma add_sub_mono s o : forall n m p cur mp r, n <= m -> add_sub_inputs n s o p cur mp = Some r -> add_sub_inputs m s o p cur mp = Some r.
Proof.
  induction n as [|n IH]; intros m p cur mp r L; [discriminate|]. destruct m as [|m]; [lia|]. cbn [add_sub_inputs].
  destruct (st_def cur); auto. apply fold_res_mono. intros [i x] st r0. cbn [fst snd].
  destruct (ft_def (sf_type x)); auto. destruct (get_type s (ft_name (sf_type x))); auto. apply IH. lia.
Qed.
Lemma compile_globals_mono n m c o s names r : n <= m -> compile_globals n c o s names = Some r -> compile_globals m c o s names = Some r.
Proof.
  intros L. unfold compile_globals, global_defs.
  destruct (fold_res (add_global n s o) (o [0] _ (index_list names)) []) as [x|] eqn:E; [|discriminate].
  rewrite (fold_res_mono (add_global n s o) (add_global m s o)) with (r := x); auto.
  intros [i y] st r0. unfold add_global. cbn [fst snd]. destruct (get_type s y) as [gt|]; auto.
  destruct (add_sub_inputs n s o [i; 1] gt st) as [z|] eqn:Ea; [|discriminate]. rewrite (add_sub_mono _ _ _ _ _ _ _ _ L Ea). auto.
Qed.
Lemma globals_file_mono n m e f c s root names : n <= m -> compile_globals_file n e f c s root names <> Diverges ->
  compile_globals_file m e f c s root names = compile_globals_file n e f c s root names.
Proof.
  intros L N. unfold compile_globals_file in *. destruct names as [|x names]; [reflexivity|].
  destruct (compile_globals n c _ s (x :: names)) as [r|] eqn:E; [|exfalso; apply N; reflexivity].
  rewrite (compile_globals_mono _ _ _ _ _ _ _ L E). reflexivity.
Qed.
Lemma run_work_mono n m e ls c s x f : n <= m -> run_work n e ls c s x f <> Diverges -> run_work m e ls c s x f = run_work n e ls c s x f.
Proof.
  intros L. destruct x as [path|d]; [|reflexivity]. cbn [run_work]. intros N.
  rewrite (compile_file_mono n m); auto. intros E. apply N. rewrite E. reflexivity.
Qed.

Lemma step_mono {W G R} (run run' : runner W G R) n st i :
  (forall x, run x (ps_ext st) <> Diverges -> run' x (ps_ext st) = run x (ps_ext st)) ->
  ps_aborted (step run n st i) = false -> step run' n st i = step run n st i.
Proof.
  intros H. unfold step. destruct (ps_aborted st) eqn:Ea; [reflexivity|]. destruct (nth_error (ps_workers st) i) as [w|]; [|reflexivity].
  unfold wstep. destruct (wk_pc w) as [|x|x|x|xs| | | |k| | | |k| |] eqn:Ep; try reflexivity.
  specialize (H x). destruct (run x (ps_ext st)) as [[[g ch] r]| |]; [rewrite H by discriminate; reflexivity|rewrite H by discriminate; reflexivity|discriminate].
Qed.
Lemma aborted_stays {W G R} (run : runner W G R) n st sched : ps_aborted st = true -> steps run n st sched = st.
Proof. intros A. induction sched as [|i l IH]; [reflexivity|]. change (steps run n (step run n st i) l = st). unfold step. rewrite A. exact IH. Qed.
Lemma steps_mono {W G R} (run run' : runner W G R) n st sched :
  (forall x g, run x g <> Diverges -> run' x g = run x g) ->
  ps_aborted (steps run n st sched) = false -> steps run' n st sched = steps run n st sched.
Proof.
  intros H. induction sched as [|i sched IH] using rev_ind; [reflexivity|]. rewrite !steps_app. intros A.
  assert (B : ps_aborted (steps run n st sched) = false).
  { destruct (ps_aborted (steps run n st sched)) eqn:E; auto. rewrite (aborted_stays run n _ [i] E) in A. congruence. }
  rewrite (IH B). cbn. apply step_mono; auto.
Qed.
Lemma qlc_mono n m wo a sched : n <= m -> qlc n wo a sched <> ProcAborted -> qlc m wo a sched = qlc n wo a sched.
Proof.
  intros L. unfold qlc. destruct (load_config _ _) as [cf|]; [|reflexivity]. destruct (parse_schema _ _) as [s|]; [|reflexivity].
  set (rc := merge_config (wo_ncpus wo) a cf). set (c := cconfig_of rc). intros N.
  set (st := steps (run_work n (wo_env wo) (wo_listing wo) c s) (rc_number_threads rc) (start (rc_number_threads rc) (WDir (rc_root_dir rc)) (wo_fs wo)) sched) in *.
  assert (A : ps_aborted st = false).
  { destruct (ps_aborted st) eqn:E; auto. exfalso. apply N. unfold pool_status. rewrite E. reflexivity. }
  rewrite (steps_mono (run_work n (wo_env wo) (wo_listing wo) c s)); [|intros; apply run_work_mono; auto|exact A]. fold st.
  destruct (pool_status st); try reflexivity. unfold finish_work in *.
  rewrite (globals_file_mono n m); auto. intros E. apply N. rewrite E. reflexivity.
Qed.

(** ** Runs in which every file ends *)
Section Total.
Variables (fuel : nat) (e : env) (ls : listing) (c : cconfig) (s : schema) (n : nat) (root : string) (f : fs).
Notation run := (run_work fuel e ls c s).
Hypothesis names : names_ok ls.
Hypothesis sep : separate e ls c root f.
Hypothesis ends : forall path, is_source ls root path -> exists f' r, compile_file fuel e f c s path = Done (f', r).
Notation final sched := (steps run n (start n (WDir root) f) sched).

(** The same, but ending always *)
Definition tot : runner work fs report := fun x g =>
  match run x g with Done y => Done y | _ => Done (g, dir_kids ls x, {| rp_messages := []; rp_globals := [] |}) end.
Lemma tot_kids x g g' ch r : tot x g = Done (g', ch, r) -> ch = dir_kids ls x.
Proof.
  unfold tot. destruct (run x g) as [[[g1 ch1] r1]| |] eqn:E; intros H; injection H as <- <- <-; auto.
  eapply run_work_kids; eauto.
Qed.
Lemma hands_tree sched : Forall (fun y => exists p, in_tree ls root p y) (hands (final sched)).
Proof.
  assert (X : Forall (fun y => exists p, in_tree ls root p y) (queued (ps_queue (final sched))) /\
    Forall (fun y => exists p, in_tree ls root p y) (hands (final sched)) /\
    Forall (fun y => exists p, in_tree ls root p y) (completed (final sched))).
  { induction sched as [|i sched IH] using rev_ind; [apply items_start; exists []; constructor|]. rewrite steps_app. destruct IH as (Hq & Hh & Hc).
    apply (items_inv run n (dir_kids ls) (run_work_kids fuel e ls c s) _ (kid_in_tree ls root) [i] _ Hq Hh Hc). }
  apply X.
Qed.
Lemma hand_ends sched x : In x (hands (final sched)) -> exists y, run x (ps_ext (final sched)) = Done y.
Proof.
  intros I. pose proof (hands_tree sched) as T. rewrite Forall_forall in T. specialize (T x I).
  destruct x as [path|d]; [|cbn [run_work]; destruct (run_dir_entry ls d); eauto].
  destruct (fs_inv_steps fuel e ls c s n root f names sep sched) as (_ & _ & I3).
  assert (Ag : forall l, SpecFs.reads e f c path l -> ps_ext (final sched) l = f l).
  { intros l R. apply I3. intros p Ip. apply (proj1 sep path p l); auto. exact (completed_source fuel e ls c s n root f sched p Ip). }
  pose proof (compile_agree e f (ps_ext (final sched)) c fuel s path Ag) as Sr. destruct (ends path T) as (f' & r & E).
  unfold same_result in Sr. rewrite E in Sr. destruct Sr as (g1 & Eg & _). cbn [run_work]. rewrite Eg. destruct r; eauto.
Qed.
Lemma tot_steps sched : final sched = steps tot n (start n (WDir root) f) sched.
Proof.
  induction sched as [|i sched IH] using rev_ind; [reflexivity|]. rewrite !steps_app, <- IH. cbn.
  pose proof (hand_ends sched) as He. unfold step. destruct (ps_aborted (final sched)); [reflexivity|].
  destruct (nth_error (ps_workers (final sched)) i) as [w|] eqn:Ew; [|reflexivity].
  assert (X : wstep tot n w (ps_queue (final sched)) (ps_nwait (final sched)) (ps_nquit (final sched)) (ps_ext (final sched)) =
              wstep run n w (ps_queue (final sched)) (ps_nwait (final sched)) (ps_nquit (final sched)) (ps_ext (final sched))).
  { unfold wstep. destruct (wk_pc w) as [|x|x|x|xs| | | |k| | | |k| |] eqn:Ep; try reflexivity.
    destruct (He x) as (y & Ey).
    { unfold hands. apply in_flat_map. exists w. split; [eapply nth_error_In; eauto|]. rewrite Ep. cbn. auto. }
    unfold tot. rewrite Ey. reflexivity. }
  rewrite X. reflexivity.
Qed.
Lemma tot_size : finite (dir_kids ls) (WDir root) -> exists m, gsize tot (dir_kids ls) (WDir root) m.
Proof.
  intros F. apply finite_gsize; auto. intros p y g _. unfold tot. destruct (run y g) as [[[g1 ch1] r1]| |] eqn:E; eauto.
  rewrite (run_work_kids fuel e ls c s _ _ _ _ _ E). eauto.
Qed.
Lemma ends_finish sched : finite (dir_kids ls) (WDir root) -> exists more, pool_status (final (sched ++ more)) = AllReturned.
Proof.
  intros F. destruct (tot_size F) as [m Hm].
  destruct (no_deadlock tot n (dir_kids ls) tot_kids (WDir root) f sched m Hm) as (st & [more R1] & E).
  exists more. rewrite tot_steps, steps_app, R1. auto.
Qed.
Lemma ends_single : n = 1 -> finite (dir_kids ls) (WDir root) ->
  exists N, forall sched, N <= count_occ Nat.eq_dec sched 0 -> pool_status (final sched) = AllReturned.
Proof.
  intros E1 F. destruct (tot_size F) as [m Hm].
  destruct (single_terminates tot n (dir_kids ls) tot_kids (WDir root) f m E1 Hm) as (N & HN).
  exists N. intros sched L. rewrite tot_steps. auto.
Qed.
Lemma ends_status sched : finite (dir_kids ls) (WDir root) -> pool_status (final sched) = StillRunning \/ pool_status (final sched) = AllReturned.
Proof.
  intros F. destruct (ends_finish sched F) as (more & E).
  destruct (pool_status (final sched)) eqn:St; auto; exfalso.
  - unfold pool_status in St. destruct (ps_aborted (final sched)) eqn:A; [discriminate|].
    destruct (forallb _ _); [|discriminate]. destruct (existsb is_panicked (ps_workers (final sched))) eqn:P; [|discriminate].
    exact (proj1 (panic_final fuel e ls c s n root f sched more P) E).
  - unfold pool_status in St. destruct (ps_aborted (final sched)) eqn:A; [|destruct (forallb _ _); [destruct (existsb _ _)|]; discriminate].
    rewrite steps_app in E. rewrite (aborted_stays run n _ more A) in E. unfold pool_status in E. rewrite A in E. discriminate.
Qed.
End Total.

(** ** Files that end *)
Lemma parse_one e contents path d : parse_file e contents path = Ok d <-> env_parse e contents = Ok [d].
Proof.
  unfold parse_file. destruct (env_parse e contents) as [[|x [|y l]]|m]; split; intros H; try discriminate; injection H as ->; reflexivity.
Qed.
Lemma Acc_sub {A} (R R' : A -> A -> Prop) x : (forall a b, R' a b -> R a b) -> Acc R x -> Acc R' x.
Proof. intros S H. induction H as [x _ IH]. constructor. intros y Ry. apply IH. auto. Qed.
Lemma sound_ends e f c s path : order_ok (env_order e path) -> consistent s -> sound_source e f c path ->
  exists N, forall k, N <= k -> exists f' r, compile_file k e f c s path = Done (f', r).
Proof.
  intros Ho Co Sd. destruct (f (env_locate e path)) as [contents|er] eqn:Ec.
  2: { exists 0. intros k _. unfold compile_file, read_file. rewrite Ec. eauto. }
  destruct (parse_file e contents path) as [d|m] eqn:Ep.
  2: { exists 0. intros k _. unfold compile_file, read_file. rewrite Ec, Ep. eauto. }
  destruct (Sd contents d Ec (proj1 (parse_one _ _ _ _) Ep)) as [Ac Qu Spr].
  destruct (acyclic_terminates e f c path Ac contents Ec) as (N1 & H1). specialize (H1 N1 (le_n _) [] []).
  destruct (add_imports N1 e f c path contents [] []) as [[im ms]| |] eqn:Ei.
  2: { exfalso. apply add_imports_panics in Ei. destruct Ei as (F & C & I & O). apply (Qu F C I). apply open_unclosed. auto. }
  2: congruence.
  destruct (parse_foreign e path im ms) as [frags ms1] eqn:Ef.
  assert (Oc : order_ok (cx_order (file_ctx e c s path frags))) by (intros q A l; apply Ho).
  destruct (C12_acyclic (file_ctx e c s path frags) d Oc Co) as (N2 & H2).
  { intros P l m Dr Sm. eapply Acc_sub; [|exact (Spr P l m Dr Sm)]. intros b a (fd & G & Sb). exists fd. split; auto.
    exact (stage_frag_sound N1 e f c path contents im ms frags ms1 Ho Ei Ef a fd G). }
  exists (N1 + N2). intros k L. unfold compile_file, read_file. rewrite Ec, Ep.
  rewrite (add_imports_mono e f c N1 k path contents [] []); [|lia|rewrite Ei; discriminate]. rewrite Ei, Ef.
  specialize (H2 k ltac:(lia)). unfold file_ctx in H2. destruct (compile_definition k _ d) as [[ws [op|errs]]|]; [| |congruence].
  - destruct (compile_ir _ _ _ op) as [co|te]; eauto. destruct (write_file _ _ _ _) as [f' [er|]]; eauto.
  - eauto.
Qed.

Lemma finite_list {W} (kids : W -> list W) x : finite kids x -> exists l, forall y, In y l <-> exists p, node kids x p y.
Proof.
  revert x. fix IH 2. intros x F. destruct F as [x F].
  assert (K : exists l, forall z, In z l <-> exists y p, In y (kids x) /\ node kids y p z).
  { clear - F IH. induction F as [|y ys Fy Fl IHl].
    { exists []. intros z. split; [intros []|intros (y & p & [] & _)]. }
    destruct IHl as [l Hl]. destruct (IH y Fy) as [l1 H1]. exists (l1 ++ l). intros z. rewrite in_app_iff, H1, Hl. split.
    - intros [(p & N)|(w & p & I & N)]; [exists y, p|exists w, p]; cbn; auto.
    - intros (w & p & [<-|I] & N); [left|right]; eauto. }
  destruct K as [l Hl]. exists (x :: l). intros y. cbn [In]. rewrite Hl. split.
  - intros [<-|(w & p & I & N)]; [exists []; constructor|]. apply In_nth_error in I as [i Ei]. exists ([i] ++ p).
    induction N as [|p z j v N IHn E]; [apply (node_child kids x [] x i w); [constructor|auto]|]. rewrite app_assoc. econstructor; eauto.
  - intros (p & N). induction N as [|q z i w N IHn E]; [left; reflexivity|].
    right. destruct IHn as [->|(v & r & I & M)].
    + exists w, []. split; [eapply nth_error_In; eauto|constructor].
    + exists v, (r ++ [i]). split; auto. econstructor; eauto.
Qed.

Section Globals.
Variables (s : schema) (o : order).
Hypothesis o_ok : order_ok o.
Hypothesis cons : inputs_consistent s.
Lemma seed_term_all names0 : (forall n, In n names0 -> wellfounded s n) ->
  exists N, forall k, N <= k -> forall names, (forall n, In n names -> In n names0) -> seed_map s o k names <> None.
Proof.
  intros W. assert (H : exists N, forall k, N <= k -> forall n, In n names0 -> forall i m, add_global k s o (i, n) m <> None).
  { induction names0 as [|n names IH]; [exists 0; intros ? ? ? []|].
    destruct IH as (N & HN). { intros; apply W; cbn; auto. }
    assert (X : exists N, forall k, N <= k -> forall i m, add_global k s o (i, n) m <> None).
    { unfold add_global. cbn [snd fst]. destruct (get_type s n) as [gt|] eqn:G; [|exists 0; discriminate].
      destruct (sub_term s o o_ok gt) as (N1 & H1); [eapply get_cur_ok; eauto| |].
      - intros r M. specialize (W n (or_introl eq_refl)). inversion W as [W']. apply W'. exists gt. auto.
      - exists N1. intros k L i m. specialize (H1 k L [i; 1] m).
        destruct (add_sub_inputs k s o [i; 1] gt m) as [[m1|e]|]; congruence. }
    destruct X as (N1 & H1). exists (N + N1). intros k L n' [<-|I] i m; [apply H1; lia|apply HN; auto; lia]. }
  destruct H as (N & HN). exists N. intros k L names Sub. apply fold_res_done. intros [i n] m I.
  apply (HN k L n). apply Sub. apply (names_in o o_ok) in I. auto.
Qed.
End Globals.

(** ** Where a panic comes from *)
Lemma update_in {A} (l : list A) i x y : In y (update l i x) -> y = x \/ In y l.
Proof.
  revert i. induction l as [|z l IH]; intros [|i] H; cbn in *; auto; destruct H as [H|H]; auto.
  destruct (IH _ H); auto.
Qed.
Lemma panicked_ran {W G R} (run : runner W G R) n root g sched :
  (exists w, In w (ps_workers (steps run n (start n root g) sched)) /\ wk_pc w = PPanicked) ->
  exists before, let st := steps run n (start n root g) before in exists x, In x (hands st) /\ run x (ps_ext st) = Panics.
Proof.
  induction sched as [|i sched IH] using rev_ind; intros (w & Iw & Ew).
  - exfalso. cbn in Iw. apply repeat_spec in Iw. subst w. discriminate Ew.
  - rewrite steps_app in Iw. cbn in Iw. set (st := steps run n (start n root g) sched) in *. unfold step in Iw.
    destruct (ps_aborted st); [apply IH; eauto|]. destruct (nth_error (ps_workers st) i) as [w0|] eqn:E0; [|apply IH; eauto].
    destruct (wstep run n w0 (ps_queue st) (ps_nwait st) (ps_nquit st) (ps_ext st)) as [[[[[w' q'] nw'] nq'] g'] ab] eqn:Es.
    cbn [ps_workers] in Iw. apply update_in in Iw. destruct Iw as [->|Iw]; [|apply IH; eauto].
    unfold wstep in Es. destruct (wk_pc w0) as [|x|x|x|xs| | | |k| | | |k| |] eqn:Ep;
      try (injection Es as <- <- <- <- <- <-; discriminate Ew).
    + destruct (ps_queue st) as [|[y|] q]; injection Es as <- <- <- <- <- <-; discriminate Ew.
    + destruct (run x (ps_ext st)) as [[[g1 ch] r]| |] eqn:Er; injection Es as <- <- <- <- <- <-; try discriminate Ew.
      * exists sched. fold st. exists x. split; auto. unfold hands. apply in_flat_map. exists w0. split; [eapply nth_error_In; eauto|]. rewrite Ep. cbn. auto.
      * rewrite Ep in Ew. discriminate Ew.
    + destruct xs; injection Es as <- <- <- <- <- <-; discriminate Ew.
    + destruct (k <? n); [|destruct (Nat.eqb (ps_nquit st) n)]; injection Es as <- <- <- <- <- <-; discriminate Ew.
    + destruct (Nat.eqb (ps_nwait st) n); injection Es as <- <- <- <- <- <-; discriminate Ew.
    + destruct k; injection Es as <- <- <- <- <- <-; discriminate Ew.
    + apply IH. exists w0. split; [eapply nth_error_In; eauto|exact Ep].
Qed.
Lemma run_panics fuel e ls c s n root f sched : names_ok ls -> separate e ls c root f ->
  pool_status (steps (run_work fuel e ls c s) n (start n (WDir root) f) sched) = SomePanicked ->
  exists path, is_source ls root path /\ compile_file fuel e f c s path = Panics.
Proof.
  intros N S P. unfold pool_status in P. destruct (ps_aborted _); [discriminate P|]. destruct (forallb _ _); [|discriminate P].
  destruct (existsb is_panicked _) eqn:X in P; [|discriminate P]. apply existsb_exists in X. destruct X as (w & Iw & Hw).
  destruct (panicked_ran (run_work fuel e ls c s) n (WDir root) f sched) as (before & x & Ix & Rx).
  { exists w. split; auto. unfold is_panicked in Hw. destruct (wk_pc w); try discriminate Hw. reflexivity. }
  pose proof (hands_tree fuel e ls c s n root f before) as T. rewrite Forall_forall in T. specialize (T x Ix).
  destruct x as [path|d]; cbn [run_work] in Rx; [|destruct (run_dir_entry ls d); discriminate Rx].
  exists path. split; [exact T|]. clear w Iw Hw P.
  set (st := steps (run_work fuel e ls c s) n (start n (WDir root) f) before) in *.
  destruct (fs_inv_steps fuel e ls c s n root f N S before) as (_ & _ & I3). fold st in I3.
  assert (Ag : forall l, SpecFs.reads e f c path l -> ps_ext st l = f l).
  { intros l R. apply I3. intros p Ip. apply (proj1 S path p l); auto. exact (completed_source fuel e ls c s n root f before p Ip). }
  pose proof (compile_agree e f (ps_ext st) c fuel s path Ag) as Sr. unfold same_result in Sr.
  destruct (compile_file fuel e f c s path) as [[f1 r]| |]; [|reflexivity|].
  - destruct Sr as (g1 & Eg & _). rewrite Eg in Rx. destruct r; discriminate Rx.
  - rewrite Sr in Rx. discriminate Rx.
Qed.
Lemma finish_no_panic fuel e c s root st : finish_work fuel e c s root st <> Panics.
Proof.
  unfold finish_work, compile_globals_file. destruct (rp_globals (aggregate st)); [discriminate|].
  destruct (compile_globals _ _ _ _ _) as [[t|te]|]; [|discriminate|discriminate]. destruct (write_file _ _ _ _) as [f' [er|]]; discriminate.
Qed.
