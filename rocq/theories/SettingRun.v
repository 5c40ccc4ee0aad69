(** Lemmas for two runs with two sets of options. *)
From Verif Require Import RunFacts AgainFacts DefFacts PoolProps PropC10.
From Verif Require Export SettingFacts.
From Coq Require Import Lia.

(** ** Messages *)
Lemma told_same c c' ms : Forall (fun m => ~ deprecation m) ms -> told_alike c c' ms ms.
Proof. intros H. exists ms, [], []. rewrite app_nil_r. repeat split; auto. Qed.
Lemma told_app c c' a b x y : told_alike c c' a b -> told_alike c c' x y -> told_alike c c' (a ++ x) (b ++ y).
Proof.
  intros (N & D & D' & A1 & A2 & A3 & A4 & A5 & A6 & A7 & A8) (M & E & E' & B1 & B2 & B3 & B4 & B5 & B6 & B7 & B8).
  exists (N ++ M), (D ++ E), (D' ++ E').
  assert (P : forall N D M E : list message, Permutation ((N ++ D) ++ (M ++ E)) ((N ++ M) ++ (D ++ E))).
  { intros. rewrite <- !app_assoc. apply Permutation_app_head. rewrite !app_assoc. apply Permutation_app_tail. apply Permutation_app_comm. }
  split; [rewrite A1, B1; apply P|]. split; [rewrite A2, B2; apply P|]. split; [apply Forall_app; auto|]. split; [apply Forall_app; auto|]. split; [apply Forall_app; auto|].
  split; [intros K; rewrite A6, B6; auto|]. split; [intros K; rewrite A7, B7; auto|]. intros K. apply Permutation_app; auto.
Qed.
Lemma told_perm c c' a b a' b' : Permutation a a' -> Permutation b b' -> told_alike c c' a b -> told_alike c c' a' b'.
Proof. intros P Q (N & D & D' & A1 & A2 & A3). exists N, D, D'. rewrite <- P, <- Q. auto. Qed.
Lemma told_error c c' a b : told_alike c c' a b -> (exists m, In m a /\ is_error_level (ms_level m)) -> exists m, In m b /\ is_error_level (ms_level m).
Proof.
  intros (N & D & D' & A1 & A2 & A3 & A4 & _) (m & I & L). exists m. split; auto. apply (Permutation_in _ A1), in_app_or in I. destruct I as [I|I].
  - apply (Permutation_in _ (Permutation_sym A2)). apply in_or_app. auto.
  - exfalso. rewrite Forall_forall in A4. destruct (A4 _ I) as [K _]. rewrite K in L. destruct L; discriminate.
Qed.
Lemma told_error' c c' a b : told_alike c c' a b -> (exists m, In m b /\ is_error_level (ms_level m)) -> exists m, In m a /\ is_error_level (ms_level m).
Proof.
  intros (N & D & D' & A1 & A2 & A3 & A4 & A5 & _) (m & I & L). exists m. split; auto. apply (Permutation_in _ A2), in_app_or in I. destruct I as [I|I].
  - apply (Permutation_in _ (Permutation_sym A1)). apply in_or_app. auto.
  - exfalso. rewrite Forall_forall in A5. destruct (A5 _ I) as [K _]. rewrite K in L. destruct L; discriminate.
Qed.
Lemma error_other m : is_error_level (ms_level m) -> ~ deprecation m.
Proof. intros [L|L] [K _]; congruence. Qed.
Lemma warnings_told c c' contents path ws ws' : keep ws = keep ws' ->
  (cc_deprecations c = false -> filter is_depr ws = []) -> (cc_deprecations c' = false -> filter is_depr ws' = []) ->
  (cc_deprecations c = cc_deprecations c' -> ws = ws') ->
  told_alike c c' (List.map (warning_message contents path) ws) (List.map (warning_message contents path) ws').
Proof.
  intros K A B C. assert (P : forall ws, Permutation ws (keep ws ++ filter is_depr ws)).
  { clear. induction ws as [|w ws IH]; [constructor|]. unfold keep in *. cbn [filter]. destruct (is_depr w); cbn [negb app]; [|constructor; auto].
    apply Permutation_cons_app. auto. }
  exists (List.map (warning_message contents path) (keep ws)), (List.map (warning_message contents path) (filter is_depr ws)), (List.map (warning_message contents path) (filter is_depr ws')).
  assert (Dp : forall ws, Forall deprecation (List.map (warning_message contents path) (filter is_depr ws))).
  { intros l. apply Forall_map, Forall_forall. intros w I. apply filter_In in I. destruct I as [_ I]. destruct w; [discriminate|]. split; [reflexivity|]. cbn. eauto. }
  split; [rewrite <- map_app; apply Permutation_map, P|]. split; [rewrite K, <- map_app; apply Permutation_map, P|].
  split; [|split; [auto|split; [auto|split; [intros E; rewrite (A E); auto|split; [intros E; rewrite (B E); auto|intros E; rewrite (C E); auto]]]]].
  apply Forall_map, Forall_forall. intros w I. apply filter_In in I. destruct I as [_ I]. destruct w; [|discriminate].
  intros (_ & field & parent & E). cbn in E. discriminate.
Qed.

(** ** What is read *)
Section Two.
Variables (e : env) (c c' : cconfig).
Hypothesis same_root : cc_root_dir c' = cc_root_dir c.
Hypothesis same_prefix : cc_import_prefix c' = cc_import_prefix c.

Lemma target_same line dir : import_target c' line dir = import_target c line dir.
Proof. unfold import_target. rewrite same_root, same_prefix. reflexivity. Qed.
Lemma imports_same f k : forall file contents im ms, add_imports k e f c' file contents im ms = add_imports k e f c file contents im ms.
Proof.
  induction k as [|k IH]; intros file contents im ms; [reflexivity|]. rewrite !add_imports_S. generalize 0. revert im ms.
  induction (lines contents) as [|l ls IL]; intros im ms n; cbn [imp_loop]; [reflexivity|]. rewrite target_same.
  destruct (is_empty l || is_empty (trim l)); auto. destruct (negb (starts_with import_start l)); [destruct (starts_with "#" l); auto|].
  destruct (import_target c l (path_pop file)) as [t|]; auto. destruct (read_file e f t) as [other|m]; auto.
  rewrite IH. destruct (add_imports k e f c t other im ms) as [[im' ms']| |]; auto.
Qed.
Lemma prefix_same q r : has_prefix c' q r <-> has_prefix c q r.
Proof. unfold has_prefix. rewrite same_prefix. tauto. Qed.
Lemma at_same file contents n l t : imports_at c' file contents n l t -> imports_at c file contents n l t.
Proof.
  intros (q & A & B & R). exists q. split; auto. split; auto. destruct R as [r H|r H E|H E]; [rewrite same_root; apply resolves_prefix; apply prefix_same; auto| |].
  - eapply resolves_relative; eauto. intros r' K. apply (H r'). apply prefix_same. auto.
  - rewrite same_root. apply resolves_root; auto. intros r' K. apply (H r'). apply prefix_same. auto.
Qed.
Lemma reads_same f path l : reads e f c' path l -> reads e f c path l.
Proof.
  intros [|contents file' contents' n l0 t E I A]; [constructor|]. eapply reads_import; [exact E| |eapply at_same; eauto].
  destruct I as [I|I]; [left; exact I|]. right. clear - I same_root same_prefix. induction I as [n l t o A E|mid mc n l t o R IH A E].
  - eapply reach_one; eauto. eapply at_same; eauto.
  - eapply reach_more; eauto. eapply at_same; eauto.
Qed.
Lemma separate_same ls root f : separate e ls c root f -> separate e ls c' root f.
Proof. intros [A B]. split; auto. intros x y l Hx Hy R. apply (A x y l Hx Hy). apply reads_same. auto. Qed.

(** ** One file *)
Lemma foreign_level im ms frags ms' path : Forall (fun m => is_error_level (ms_level m)) ms -> parse_foreign e path im ms = (frags, ms') ->
  Forall (fun m => is_error_level (ms_level m)) ms'.
Proof.
  unfold parse_foreign. intros H. generalize (env_order e path [0; 0] _ im) as l. intros l.
  assert (K : forall fr ms, Forall (fun m => is_error_level (ms_level m)) ms -> fold_left (foreign_step e path) l (fr, ms) = (frags, ms') ->
    Forall (fun m => is_error_level (ms_level m)) ms').
  { clear. induction l as [|[p [contents loc]] l IH]; intros fr ms H; cbn [fold_left]; [intros E; injection E as _ <-; auto|].
    unfold foreign_step at 2. destruct (parse_file e contents (raw p)) as [[op|fd]|m]; intros E; [|eapply IH; eauto|eapply IH; eauto].
    eapply IH; [|exact E]. apply Forall_app. split; auto. constructor; auto. left. reflexivity. }
  intros E. eapply K; eauto.
Qed.
Lemma imports_level f k : forall file contents im ms im' ms', Forall (fun m => is_error_level (ms_level m)) ms ->
  add_imports k e f c file contents im ms = Done (im', ms') -> Forall (fun m => is_error_level (ms_level m)) ms'.
Proof.
  induction k as [|k IH]; intros file contents im ms im' ms'; [discriminate|]. rewrite add_imports_S. generalize 0. revert im ms.
  induction (lines contents) as [|l ls IL]; intros im ms n H; cbn [imp_loop]; [intros E; injection E as _ <-; auto|].
  destruct (is_empty l || is_empty (trim l)); [apply IL; auto|].
  destruct (negb (starts_with import_start l)); [destruct (starts_with "#" l); [apply IL; auto|intros E; injection E as _ <-; auto]|].
  destruct (import_target c l (path_pop file)) as [t|]; [|discriminate]. unfold read_file. destruct (f (env_locate e t)) as [other|m].
  - destruct (add_imports k e f c t other im ms) as [[im1 ms1]| |] eqn:E; try discriminate. apply IL. eapply IH; eauto.
  - apply IL. apply Forall_app. split; auto. constructor; auto. left. reflexivity.
Qed.
Lemma error_level er contents path : is_error_level (ms_level (ir_error_message (env_similar e) contents path er)).
Proof. destruct er; try (left; reflexivity); try (right; reflexivity). destruct e0; first [left; reflexivity|right; reflexivity]. Qed.

Variable s : schema.
Hypothesis cons_ok : consistent s.
Hypothesis orders : forall p, order_ok (env_order e p).
Notation V := (option_place s c c').
Lemma file_alike fuel f path :
  match compile_file fuel e f c s path, compile_file fuel e f c' s path with
  | Done (f1, Ok r), Done (f2, Ok r') => changed_alike V f f1 f2 (out_loc e path) (out_loc e path) /\
      told_alike c c' (rp_messages r) (rp_messages r') /\ rp_globals r = rp_globals r'
  | Done (f1, Err ms), Done (f2, Err ms') => changed_alike V f f1 f2 (out_loc e path) (out_loc e path) /\ told_alike c c' ms ms'
  | Panics, Panics => True
  | Diverges, Diverges => True
  | _, _ => False
  end.
Proof.
  unfold compile_file, read_file. destruct (f (env_locate e path)) as [contents|err].
  2: { split; [left; auto|]. apply told_same. constructor; auto. apply error_other. left. reflexivity. }
  destruct (parse_file e contents path) as [d|m] eqn:Ep.
  2: { split; [left; auto|]. apply told_same. constructor; auto. apply error_other. unfold parse_file in Ep.
       destruct (env_parse e contents) as [[|d1 [|d2 ds]]|err]; inversion Ep; subst; left; reflexivity. }
  rewrite imports_same. destruct (add_imports fuel e f c path contents [] []) as [[im ms0]| |] eqn:Ei; auto.
  destruct (parse_foreign e path im ms0) as [frags ms1] eqn:Ef.
  assert (L : Forall (fun m => ~ deprecation m) ms1).
  { eapply Forall_impl; [|eapply foreign_level; [eapply imports_level; [constructor|exact Ei]|exact Ef]]. intros m. apply error_other. }
  pose proof (compile_alike s (cc_deprecations c) (cc_deprecations c') frags (suborder (env_order e path) [1; 0]) fuel d) as K.
  set (cx := {| cx_schema := s; cx_deprecations := cc_deprecations c; cx_frags := frags; cx_order := suborder (env_order e path) [1; 0] |}) in *.
  set (cx' := {| cx_schema := s; cx_deprecations := cc_deprecations c'; cx_frags := frags; cx_order := suborder (env_order e path) [1; 0] |}) in *.
  assert (Ok1 : order_ok (suborder (env_order e path) [1; 0])) by (intros q A k; apply orders).
  destruct (compile_definition fuel cx d) as [[ws r]|] eqn:Ed, (compile_definition fuel cx' d) as [[ws' r']|] eqn:Ed'; try discriminate; auto.
  injection K as Kw Kr. cbn [fst snd] in Kw, Kr. subst r'.
  assert (W : told_alike c c' (List.map (warning_message contents path) ws) (List.map (warning_message contents path) ws')).
  { apply warnings_told; auto.
    - intros E. exact (C10_off fuel cx d ws r Ok1 cons_ok Ed E).
    - intros E. exact (C10_off fuel cx' d ws' r Ok1 cons_ok Ed' E).
    - intros E. assert (X : cx = cx') by (unfold cx, cx'; rewrite E; reflexivity). rewrite X, Ed' in Ed. injection Ed as ->. reflexivity. }
  destruct r as [op|errs].
  - pose proof (compile_result cx Ok1 cons_ok _ _ _ _ Ed) as R. inversion R as [| | | |P p l ws0 op0 Rt C X Ev Sh En Ek]; subst. cbn [cx_schema] in Sh.
    pose proof (compile_like s c c' (suborder (env_order e path) [2; 0]) P op Sh) as Y.
    destruct (compile_ir c (suborder (env_order e path) [2; 0]) s op) as [co|te], (compile_ir c' (suborder (env_order e path) [2; 0]) s op) as [co'|te']; try contradiction.
    + destruct Y as [Yd Yg].
      destruct (write_file_at e (with_extension path "graphql.d.ts") (co_contents co) f) as (w & A1 & A2 & A3).
      destruct (write_file_at e (with_extension path "graphql.d.ts") (co_contents co') f) as (w' & B1 & B2 & B3).
      assert (Ch : changed_alike V f (fst (write_file e f (with_extension path "graphql.d.ts") (co_contents co))) (fst (write_file e f (with_extension path "graphql.d.ts") (co_contents co'))) (out_loc e path) (out_loc e path)).
      { unfold changed_alike, out_loc. rewrite A3, B3, A2, B2. destruct (env_write e (with_extension path "graphql.d.ts")); [right|left; auto|right].
        - eauto.
        - eexists. eexists. split; [reflexivity|]. split; [reflexivity|]. apply differs_refl. }
      destruct (write_file e f _ (co_contents co)) as [f1 r1]. destruct (write_file e f _ (co_contents co')) as [f2 r2]. cbn [fst snd] in *.
      rewrite <- B1 in A1. subst r2. destruct r1 as [err|]; split; auto.
      * apply told_same. constructor; auto. apply error_other. left. reflexivity.
      * split; auto. cbn [rp_messages]. apply told_app; auto. apply told_same. auto.
    + subst te'. split; [left; auto|]. rewrite <- !app_assoc. apply told_app; [apply told_same; auto|]. apply told_app; auto. apply told_same. constructor; auto.
      apply error_other. destruct te; right; reflexivity.
  - split; [left; auto|]. apply told_app; [apply told_same; auto|]. apply told_app; auto. apply told_same. apply Forall_map, Forall_forall. intros er _. apply error_other, error_level.
Qed.

(** ** A run *)
Variables (fuel : nat) (ls : listing) (root : string) (f : fs).
Hypothesis names : names_ok ls.
Hypothesis sep : separate e ls c root f.
Notation first n sched := (steps (run_work fuel e ls c s) n (start n (WDir root) f) sched).
Notation second n sched := (steps (run_work fuel e ls c' s) n (start n (WDir root) f) sched).
Lemma item_alike x : let r := item_report fuel e ls c s f x in let r' := item_report fuel e ls c' s f x in
  told_alike c c' (rp_messages r) (rp_messages r') /\ rp_globals r = rp_globals r'.
Proof.
  cbn zeta. unfold item_report. destruct x as [path|d]; cbn [run_work].
  - pose proof (file_alike fuel f path) as K.
    destruct (compile_file fuel e f c s path) as [[f1 [r|ms]]| |], (compile_file fuel e f c' s path) as [[f2 [r'|ms']]| |]; try contradiction; try tauto.
    all: split; auto; apply told_same; constructor.
  - destruct (run_dir_entry ls d); split; auto; apply told_same; constructor; auto. apply error_other. left. reflexivity.
Qed.

Section Ends.
Variables (n n' : nat) (sched sched' : list nat).
Hypothesis ev : every_once ls root (completed (first n sched)).
Hypothesis ev' : every_once ls root (completed (second n' sched')).
Lemma same_work : Permutation (completed (first n sched)) (completed (second n' sched')).
Proof.
  apply NoDup_Permutation; [exact (every_once_nodup _ _ _ names ev)|exact (every_once_nodup _ _ _ names ev')|].
  intros x. rewrite (every_once_item _ _ _ _ ev), (every_once_item _ _ _ _ ev'). tauto.
Qed.
Lemma messages_alike : told_alike c c' (rp_messages (aggregate (first n sched))) (rp_messages (aggregate (second n' sched'))).
Proof.
  rewrite !aggregate_messages, (log_results fuel e ls c s root f names sep), (log_results fuel e ls c' s root f names (separate_same _ _ _ sep)).
  rewrite !flat_map_concat_map, !map_map, <- !flat_map_concat_map. cbn [snd].
  apply (told_perm c c' (flat_map (fun x => rp_messages (item_report fuel e ls c s f x)) (completed (second n' sched')))
    (flat_map (fun x => rp_messages (item_report fuel e ls c' s f x)) (completed (second n' sched')))); [|reflexivity|].
  - apply Permutation_flat. symmetry. apply same_work.
  - clear ev'. induction (completed (second n' sched')) as [|x l IH]; cbn [flat_map]; [apply told_same; constructor|]. apply told_app; auto. apply item_alike.
Qed.
Lemma globals_alike x : In x (rp_globals (aggregate (first n sched))) <-> In x (rp_globals (aggregate (second n' sched'))).
Proof.
  rewrite !aggregate_globals, (log_results fuel e ls c s root f names sep), (log_results fuel e ls c' s root f names (separate_same _ _ _ sep)).
  split; intros (y & I & H); apply in_map_iff in I; destruct I as (w & <- & I); cbn [snd] in H.
  - eexists. split; [apply in_map_iff; exists w; split; [reflexivity|apply (Permutation_in _ same_work I)]|]. cbn [snd]. rewrite <- (proj2 (item_alike w)). exact H.
  - eexists. split; [apply in_map_iff; exists w; split; [reflexivity|apply (Permutation_in _ (Permutation_sym same_work) I)]|]. cbn [snd]. rewrite (proj2 (item_alike w)). exact H.
Qed.
Lemma outputs_alike l : changed_alike V f (ps_ext (first n sched)) (ps_ext (second n' sched')) l l.
Proof.
  destruct (run_outputs fuel e ls c s root f names sep n sched ev) as [A1 A2].
  destruct (run_outputs fuel e ls c' s root f names (separate_same _ _ _ sep) n' sched' ev') as [B1 B2].
  destruct (in_dec string_dec l (List.map (out_loc e) (files_of (completed (first n sched))))) as [I|N].
  - apply in_map_iff in I. destruct I as (path & <- & I). apply in_files_of in I.
    assert (Sp : is_source ls root path) by (apply (every_once_in _ _ _ _ ev); exact I).
    destruct (A1 path Sp) as (f1 & r & Ef & Ea). destruct (B1 path Sp) as (g1 & r' & Eg & Eb).
    pose proof (file_alike fuel f path) as C. rewrite Ef, Eg in C. unfold changed_alike in *. rewrite Ea, Eb. destruct r, r'; try contradiction; tauto.
  - assert (Q : forall path, is_source ls root path -> l <> out_loc e path).
    { intros path Sp E. apply N. apply in_map_iff. exists path. split; auto. apply in_files_of. apply (every_once_in _ _ _ _ ev). exact Sp. }
    left. split; [apply A2; auto|]. apply B2. auto.
Qed.
End Ends.

(** The file of globals *)
Lemma globals_file_alike h k ns ns' h' k' m m' : inputs_consistent s -> (forall x, In x ns <-> In x ns') ->
  (globals_path c' root = globals_path c root \/ (env_write e (globals_path c root) = WOk /\ env_write e (globals_path c' root) = WOk)) ->
  compile_globals_file fuel e h c s root ns = Done (h', m) -> compile_globals_file fuel e k c' s root ns' = Done (k', m') ->
  (m = None <-> m' = None) /\
  ((forall l, h' l = h l) /\ (forall l, k' l = k l) \/
   exists a b, differs V a b /\ (forall l, h' l = if String.eqb l (env_locate e (globals_path c root)) then Ok a else h l) /\
     (forall l, k' l = if String.eqb l (env_locate e (globals_path c' root)) then Ok b else k l)).
Proof.
  intros Ci Hn Wr. unfold compile_globals_file.
  assert (Os : order_ok (suborder (env_order e root) [1])). { intros q A l. apply orders. }
  destruct ns as [|x xs].
  { destruct ns' as [|y ys]; [|exfalso; apply (Hn y); cbn; auto]. intros H H'. injection H as <- <-. injection H' as <- <-. split; [tauto|]. left. auto. }
  destruct ns' as [|y ys]; [exfalso; apply (Hn x); cbn; auto|].
  pose proof (globals_like s c c' _ Os Ci fuel (y :: ys)) as G.
  destruct (compile_globals fuel c _ s (x :: xs)) as [a|] eqn:Ea; [|discriminate].
  destruct (compile_globals fuel c' _ s (y :: ys)) as [b'|]; [|discriminate].
  destruct (compile_globals fuel c _ s (y :: ys)) as [b|] eqn:Eb; [|contradiction].
  pose proof (globals_same_names _ _ _ _ _ _ _ _ _ _ Os Os Ci Hn Ea Eb) as K.
  destruct a as [t|te].
  - subst b. destruct b' as [t'|te']; [|contradiction]. unfold write_file.
    destruct Wr as [Wr|[W1 W2]].
    + rewrite Wr. destruct (env_write e (globals_path c root)); intros H H'; injection H as <- <-; injection H' as <- <-; (split; [intuition discriminate|]).
      * right. exists t, t'. auto.
      * left. auto.
      * right. eexists. eexists. split; [apply differs_refl|]. split; intros l; reflexivity.
    + rewrite W1, W2. intros H H'. injection H as <- <-. injection H' as <- <-. split; [tauto|]. right. exists t, t'. auto.
  - destruct K as [e' ->]. destruct b' as [t'|te']; [contradiction|]. intros H H'. injection H as <- <-. injection H' as <- <-. split; [intuition discriminate|]. left. auto.
Qed.
End Two.
