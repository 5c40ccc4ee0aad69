(** Whole runs: what is left in the file system when all files were processed. *)
From Verif Require Export FsFacts GlobalText.
From Coq Require Import Lia.

(** ** Globals: the result depends only on the set of names *)
Lemma globals_typed fuel c o s names text : order_ok o -> inputs_consistent s ->
  compile_globals fuel c o s names = Some (Ok text) -> forall n, In n names -> global_type s n.
Proof.
  intros Ho C H n I. unfold compile_globals, global_defs in H. fold (seed_map s o fuel names) in H.
  destruct (seed_map s o fuel names) as [[m|e]|] eqn:Es; try discriminate.
  destruct (seed_ok s o Ho C fuel names m Es) as (Nm & K).
  destruct (collect_res _) as [ds|e] eqn:Ec; [|discriminate]. apply collect_res_map in Ec.
  assert (Gn : exists t, get_type s n = Some t).
  { destruct (get_type s n) as [t|] eqn:G; eauto. exfalso.
    unfold seed_map in Es. destruct (in_names o Ho names n I) as (i & Ii).
    destruct (fold_res_each _ _ _ _ Es _ Ii) as (m1 & m2 & Hx). unfold add_global in Hx. cbn [snd] in Hx.
    rewrite G in Hx. discriminate. }
  destruct Gn as [t G].
  assert (A : aget n m = Some t). { apply K. split; auto. exists n. split; auto. constructor. }
  apply aget_In in A.
  assert (Pm : Permutation m (sort_by fst (o [2] _ m))). { transitivity (o [2] _ m); [apply Ho|apply sort_by_perm]. }
  apply (Permutation_in _ Pm) in A. rewrite <- (index_list_map_snd (sort_by fst (o [2] _ m))) in A.
  apply in_map_iff in A. destruct A as ([i x] & Ex & Ix). cbn in Ex. subst x.
  destruct (Forall2_in_l _ _ _ _ Ec Ix) as (d & _ & Hd). exists t. split; auto.
  unfold global_def in Hd. destruct (st_def t); auto; discriminate.
Qed.
Lemma needed_names s names names' n : (forall x, In x names <-> In x names') -> needed s names n <-> needed s names' n.
Proof. intros H. unfold needed. split; intros (r & I & L); exists r; split; auto; apply H; auto. Qed.
Lemma file_text_names s c names names' text : (forall x, In x names <-> In x names') ->
  file_text s c names text -> file_text s c names' text.
Proof.
  intros H (l & ds & N & S0 & K & F & E). exists l, ds. split; auto. split; auto. split; auto.
  intros n t. rewrite K, (needed_names s names names' n H). tauto.
Qed.
Lemma globals_same_names fuel fuel' c o o' s names names' a b : order_ok o -> order_ok o' -> inputs_consistent s ->
  (forall x, In x names <-> In x names') ->
  compile_globals fuel c o s names = Some a -> compile_globals fuel' c o' s names' = Some b ->
  match a with Ok t => b = Ok t | Err _ => exists e, b = Err e end.
Proof.
  intros Ho Ho' C H Ea Eb.
  assert (K : forall fuel fuel' o o' names names' a t, order_ok o -> order_ok o' -> (forall x, In x names <-> In x names') ->
    compile_globals fuel c o s names = Some (Ok t) -> compile_globals fuel' c o' s names' = Some a -> a = Ok t).
  { clear - C. intros fuel fuel' o o' names names' a t Ho Ho' H Ea Eb.
    pose proof (fun n => globals_typed fuel c o s names t Ho C Ea n) as G.
    assert (G' : forall n, In n names' -> global_type s n) by (intros n I; apply G, H; auto).
    destruct (globals_done s o c Ho C names fuel _ G Ea) as (_ & x & Ex & F). inversion Ex; subst x.
    destruct (globals_done s o' c Ho' C names' fuel' _ G' Eb) as (_ & y & -> & F').
    f_equal. eapply file_text_unique; eauto. eapply file_text_names; [|exact F]; auto. }
  destruct a as [t|e]; [exact (K fuel fuel' o o' names names' b t Ho Ho' H Ea Eb)|].
  destruct b as [t|e']; [|eauto]. assert (X : Err e = Ok t). { eapply (K fuel' fuel o' o names' names); eauto. intros x. symmetry. auto. } discriminate.
Qed.

Lemma write_same e f g path contents : (forall l, f l = g l) ->
  snd (write_file e f path contents) = snd (write_file e g path contents) /\
  forall l, fst (write_file e f path contents) l = fst (write_file e g path contents) l.
Proof.
  intros H. unfold write_file. destruct (env_write e path); cbn; split; auto; intros l; destruct (String.eqb l _); auto.
Qed.

(** The globals step leaves the same files, and fails in both cases or in none *)
Lemma globals_file_same fuel e f g c s root names names' f' g' m m' :
  (forall p, order_ok (env_order e p)) -> inputs_consistent s -> (forall l, f l = g l) ->
  (forall x, In x names <-> In x names') ->
  compile_globals_file fuel e f c s root names = Done (f', m) ->
  compile_globals_file fuel e g c s root names' = Done (g', m') ->
  (forall l, f' l = g' l) /\ (m = None <-> m' = None).
Proof.
  intros Ho C Hf Hn. unfold compile_globals_file.
  assert (Os : order_ok (suborder (env_order e root) [1])). { intros q A l. apply Ho. }
  destruct names as [|x xs].
  { destruct names' as [|y ys]; [|exfalso; apply (Hn y); cbn; auto].
    intros H H'. inversion H; inversion H'; subst. split; auto. tauto. }
  destruct names' as [|y ys]; [exfalso; apply (Hn x); cbn; auto|].
  destruct (compile_globals fuel c _ s (x :: xs)) as [a|] eqn:Ea; [|discriminate].
  destruct (compile_globals fuel c _ s (y :: ys)) as [b|] eqn:Eb; [|destruct a as [t|te]; [destruct (write_file e f _ t) as [? [?|]]|]; discriminate].
  pose proof (globals_same_names _ _ _ _ _ _ _ _ _ _ Os Os C Hn Ea Eb) as K.
  destruct a as [t|te].
  - subst b. destruct (write_same e f g (globals_path c root) t Hf) as [W1 W2].
    destruct (write_file e f _ t) as [f1 r1]. destruct (write_file e g _ t) as [g1 r2]. cbn [fst snd] in *. subst r2.
    destruct r1; intros H H'; inversion H; inversion H'; subst; split; auto; split; discriminate || auto.
  - destruct K as [e' ->]. intros H H'. inversion H; inversion H'; subst. split; auto. split; discriminate.
Qed.

(** ** Runs that process every file *)
Lemma Forall2_perm {A B} (R : A -> B -> Prop) ps ps' : Permutation ps ps' -> forall xs, Forall2 R ps xs ->
  exists xs', Permutation xs xs' /\ Forall2 R ps' xs'.
Proof.
  induction 1 as [|p ps ps' Pm IH|p q ps|ps1 ps2 ps3 P1 IH1 P2 IH2]; intros xs F.
  - inversion F; subst. exists []. auto.
  - inversion F; subst. destruct (IH _ H3) as (xs' & P' & F'). exists (y :: xs'). auto.
  - inversion F; subst. inversion H3; subst. exists (y0 :: y :: l'0). split; [constructor|auto].
  - destruct (IH1 _ F) as (xs1 & Q1 & F1). destruct (IH2 _ F1) as (xs2 & Q2 & F2). exists xs2. split; auto. etransitivity; eauto.
Qed.
Lemma Forall2_fun {A B} (R : A -> B -> Prop) ps xs ys : (forall p x y, R p x -> R p y -> x = y) ->
  Forall2 R ps xs -> Forall2 R ps ys -> xs = ys.
Proof. intros H F. revert ys. induction F; intros ys F'; inversion F'; subst; auto. f_equal; eauto. Qed.
Lemma every_once_perm ls root xs ys : every_once ls root xs -> every_once ls root ys -> Permutation xs ys.
Proof.
  intros (ps & N & F & A) (qs & N' & F' & A').
  assert (Pm : Permutation ps qs).
  { apply NoDup_Permutation; auto. intros p. split; intros I.
    - destruct (Forall2_In_l _ _ _ _ F I) as [y Hy]. eauto.
    - destruct (Forall2_In_l _ _ _ _ F' I) as [y Hy]. eauto. }
  destruct (Forall2_perm _ _ _ Pm _ F) as (xs' & P1 & F1). rewrite P1.
  rewrite (Forall2_fun _ _ _ _ (fun p x y => tree_fun ls root p x y) F1 F'). auto.
Qed.
Lemma every_once_in ls root xs path : every_once ls root xs -> (In (WFile path) xs <-> is_source ls root path).
Proof.
  intros (ps & N & F & A). split.
  - intros I. destruct (Forall2_in_r _ _ _ _ F I) as (p & _ & Hp). exists p. auto.
  - intros [p Hp]. destruct (Forall2_in_l _ _ _ _ F (A _ _ Hp)) as (x & Ix & Hx).
    rewrite (tree_fun ls root p _ _ Hp Hx). auto.
Qed.

Section Run.
Variables (fuel : nat) (e : env) (ls : listing) (c : cconfig) (s : schema) (root : string) (f : fs).
Notation run := (run_work fuel e ls c s).
Notation final n sched := (steps run n (start n (WDir root) f) sched).
Hypothesis names : names_ok ls.
Hypothesis sep : separate e ls c root f.

(** The report of an item on the initial contents *)
Definition item_report (x : work) : report := match run x f with Done (_, _, r) => r | _ => agg_new end.
Lemma log_results n sched :
  pool_log (final n sched) = List.map (fun x => (x, dir_kids ls x, item_report x)) (completed (final n sched)).
Proof.
  destruct (fs_inv_steps fuel e ls c s n root f names sep sched) as (I1 & _ & _).
  assert (K : forall x ch r, In (x, ch, r) (pool_log (final n sched)) -> ch = dir_kids ls x /\ r = item_report x).
  { intros x ch r I. split.
    - destruct (log_genuine fuel e ls c s n root f sched x ch r I) as (g & g' & R). eapply run_work_kids; eauto.
    - destruct (I1 _ _ _ I) as (f' & R). unfold item_report. rewrite R. auto. }
  unfold completed. rewrite map_map. rewrite <- (map_id (pool_log (final n sched))) at 1.
  apply map_ext_in. intros [[x ch] r] I. cbn. destruct (K x ch r I) as [-> ->]. auto.
Qed.

(** The files left by a run that processed every item *)
Lemma run_outputs n sched : every_once ls root (completed (final n sched)) ->
  (forall path, is_source ls root path -> exists f' r, compile_file fuel e f c s path = Done (f', r) /\
     ps_ext (final n sched) (out_loc e path) = f' (out_loc e path)) /\
  (forall l, (forall path, is_source ls root path -> l <> out_loc e path) -> ps_ext (final n sched) l = f l).
Proof.
  intros Ev. destruct (fs_inv_steps fuel e ls c s n root f names sep sched) as (_ & I2 & I3). split.
  - intros path Sp. apply (every_once_in _ _ _ _ Ev) in Sp.
    destruct (I2 _ path Sp eq_refl) as (f' & ch & r & R & E). cbn [run_work] in R.
    destruct (compile_file fuel e f c s path) as [[f1 [r1|ms]]| |]; inversion R; subst; eauto.
  - intros l H. apply I3. intros path I. apply H. apply (every_once_in _ _ _ _ Ev). auto.
Qed.

Lemma run_same n n' sched sched' :
  every_once ls root (completed (final n sched)) -> every_once ls root (completed (final n' sched')) ->
  Permutation (pool_log (final n sched)) (pool_log (final n' sched')) /\
  forall l, ps_ext (final n sched) l = ps_ext (final n' sched') l.
Proof.
  intros E1 E2. split.
  - rewrite !log_results. apply Permutation_map. eapply every_once_perm; eauto.
  - intros l. pose proof (every_once_perm _ _ _ _ E1 E2) as Pm.
    destruct (fs_inv_steps fuel e ls c s n root f names sep sched) as (_ & I2 & I3).
    destruct (fs_inv_steps fuel e ls c s n' root f names sep sched') as (_ & J2 & J3).
    destruct (in_dec string_dec l (List.map (out_loc e) (files_of (completed (final n sched))))) as [I|N].
    + apply in_map_iff in I. destruct I as (path & El & I). apply in_files_of in I. subst l.
      destruct (I2 _ path I eq_refl) as (f1 & ch1 & r1 & R1 & ->).
      apply (Permutation_in _ Pm) in I. destruct (J2 _ path I eq_refl) as (f2 & ch2 & r2 & R2 & ->).
      rewrite R1 in R2. inversion R2; subst. auto.
    + rewrite I3, J3; auto.
      * intros path I El. apply N. apply in_map_iff. exists path. split; auto. apply in_files_of.
        apply (Permutation_in _ (Permutation_sym Pm)). auto.
      * intros path I El. apply N. apply in_map_iff. exists path. split; auto. apply in_files_of. auto.
Qed.
End Run.
Arguments item_report : clear implicits.

Lemma Permutation_flat {A B} (h : A -> list B) l l' : Permutation l l' -> Permutation (flat_map h l) (flat_map h l').
Proof.
  induction 1; cbn; auto.
  - apply Permutation_app_head. auto.
  - rewrite !app_assoc. apply Permutation_app_tail. apply Permutation_app_comm.
  - etransitivity; eauto.
Qed.
Lemma aggregate_same (p p' : pool work fs report) : Permutation (pool_log p) (pool_log p') ->
  Permutation (rp_messages (aggregate p)) (rp_messages (aggregate p')) /\
  forall x, In x (rp_globals (aggregate p)) <-> In x (rp_globals (aggregate p')).
Proof.
  intros Pm. split.
  - rewrite !aggregate_messages. apply Permutation_flat. auto.
  - intros x. rewrite !aggregate_globals. split; intros (y & I & H); exists y; split; auto.
    + apply (Permutation_in _ Pm). auto.
    + apply (Permutation_in _ (Permutation_sym Pm)). auto.
Qed.
