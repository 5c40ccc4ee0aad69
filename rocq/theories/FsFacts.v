(** Compiling a file depends only on what it reads; the file system during a run. *)
From Verif Require Export SpecFs GraphqlFacts PoolProps ScanFacts ImportFacts.
From Coq Require Import Lia.

(** ** Imports *)
Section Agree.
Variables (e : env) (f g : fs) (c : cconfig).

Lemma loop_agree (rf rg : walker) file : forall ls pre im ms,
  (forall n l t, import_in c file pre ls n l t -> g (env_locate e t) = f (env_locate e t) /\
     forall o im ms, f (env_locate e t) = Ok o -> rg t o im ms = rf t o im ms) ->
  imp_loop rg e g c file (List.length pre) ls im ms = imp_loop rf e f c file (List.length pre) ls im ms.
Proof.
  induction ls as [|line ls IH]; intros pre im ms H; cbn [imp_loop]; auto.
  assert (L : S (List.length pre) = List.length (pre ++ [line])) by (rewrite app_length; cbn; lia).
  destruct (line_kinds c (path_pop file) line) as [K Le Nq Nu|K1 K2 K3 Nl|K1 K2 K3 Le U|q t K1 K2 K3 Le Q R Nu].
  - assert (N : imp_loop rg e g c file (S (List.length pre)) ls im ms = imp_loop rf e f c file (S (List.length pre)) ls im ms).
    { rewrite L. apply IH. intros n l t I. apply (H n l t). apply import_in_skip; auto. }
    destruct K as [-> |(-> & -> & ->)]; auto.
  - rewrite K1, K2, K3. auto.
  - rewrite K1, K2, K3. auto.
  - rewrite K1, K2, K3. cbn zeta.
    assert (Ht : import_in c file pre (line :: ls) (List.length pre) line t).
    { eapply import_in_cons; eauto. }
    destruct (H _ _ _ Ht) as [Ef Er]. unfold read_file. rewrite Ef.
    assert (N : forall im ms, imp_loop rg e g c file (S (List.length pre)) ls im ms = imp_loop rf e f c file (S (List.length pre)) ls im ms).
    { intros im' ms'. rewrite L. apply IH. intros n l t' I. apply (H n l t'). eapply import_in_cons; eauto. }
    destruct (f (env_locate e t)) as [o|err] eqn:Eo; auto.
    rewrite (Er o im ms eq_refl). destruct (rf t o im ms) as [[im' ms']| |]; auto.
Qed.

Lemma imports_agree k : forall file contents im ms,
  (forall file' contents' n l t, importer e f c file contents file' contents' -> imports_at c file' contents' n l t ->
     g (env_locate e t) = f (env_locate e t)) ->
  add_imports k e g c file contents im ms = add_imports k e f c file contents im ms.
Proof.
  induction k as [|k IH]; intros file contents im ms H; auto.
  rewrite !add_imports_S. apply (loop_agree _ _ file (lines contents) []).
  intros n l t I. apply import_in_nil in I. split.
  - eapply H; eauto. left. auto.
  - intros o im' ms' Eo. apply IH. intros file' contents' n' l' t' Im A. eapply H; eauto.
    assert (R1 : reach e f c file contents t o) by (eapply reach_one; eauto).
    destruct Im as [[-> ->]|R2]; [right; auto|]. right.
    clear - R1 R2. induction R2; eapply reach_more; eauto.
Qed.

(** ** One file *)
Lemma write_file_at path contents (h : fs) :
  exists w : option string, snd (write_file e h path contents) = match env_write e path with WOk => None | WFailOpen x => Some x | WFailMid x _ => Some x end /\
    w = match env_write e path with WOk => Some contents | WFailOpen _ => None | WFailMid _ p => Some p end /\
    fst (write_file e h path contents) (env_locate e path) = match w with Some v => Ok v | None => h (env_locate e path) end.
Proof.
  unfold write_file. eexists. split; [|split; [reflexivity|]]; destruct (env_write e path); cbn; rewrite ?String.eqb_refl; auto.
Qed.

Definition same_result fuel s path (o o' : outcome (fs * res (list message) report)) : Prop :=
  match o with
  | Done (f', r) => exists g', o' = Done (g', r) /\ exists w : option string,
      f' (out_loc e path) = match w with Some v => Ok v | None => f (out_loc e path) end /\
      g' (out_loc e path) = match w with Some v => Ok v | None => g (out_loc e path) end /\
      compile_file fuel e f c s path = o /\ (forall r', r = Ok r' -> w <> None)
  | Panics => o' = Panics
  | Diverges => o' = Diverges
  end.

Lemma compile_agree fuel s path : (forall l, reads e f c path l -> g l = f l) ->
  same_result fuel s path (compile_file fuel e f c s path) (compile_file fuel e g c s path).
Proof.
  intros H. unfold same_result, compile_file, read_file.
  rewrite (H (env_locate e path)) by constructor.
  destruct (f (env_locate e path)) as [contents|err] eqn:Ec.
  2: { eexists. split; [reflexivity|]. exists None. repeat split; auto; discriminate. }
  destruct (parse_file e contents path) as [d|m].
  2: { eexists. split; [reflexivity|]. exists None. repeat split; auto; discriminate. }
  rewrite (imports_agree fuel path contents [] []).
  2: { intros file' contents' n l t I A. apply H. eapply reads_import; eauto. }
  destruct (add_imports fuel e f c path contents [] []) as [[im ms]| |]; auto.
  destruct (parse_foreign e path im ms) as [frags ms1].
  destruct (compile_definition _ _ d) as [[ws [op|errs]]|]; auto.
  2: { eexists. split; [reflexivity|]. exists None. repeat split; auto; discriminate. }
  destruct (compile_ir _ _ _ op) as [co|te].
  2: { eexists. split; [reflexivity|]. exists None. repeat split; auto; discriminate. }
  destruct (write_file_at (with_extension path "graphql.d.ts") (co_contents co) f) as (w & A1 & A2 & A3).
  destruct (write_file_at (with_extension path "graphql.d.ts") (co_contents co) g) as (w' & B1 & B2 & B3).
  rewrite <- A2 in B2. subst w'.
  destruct (write_file e f _ _) as [f1 r1]. destruct (write_file e g _ _) as [g1 r2]. cbn [fst snd] in *. subst r2. rewrite <- A1.
  destruct r1 as [err|]; eexists; (split; [reflexivity|]); exists w; repeat split; auto; intros r' Er; [discriminate|].
  subst w. destruct (env_write e _); discriminate.
Qed.
End Agree.

(** Compilation changes no other location *)
Lemma compile_other fuel e f c s path f' r l : compile_file fuel e f c s path = Done (f', r) -> l <> out_loc e path -> f' l = f l.
Proof.
  intros H N. destruct r as [r|ms].
  - apply compile_file_ok in H. destruct H as (ms & co & _ & W & _). eapply write_file_other; eauto.
  - apply compile_file_err in H. destruct H as [[-> _]|(ms0 & co & err & _ & W & _)]; auto. eapply write_file_other; eauto.
Qed.

(** ** The run *)
Definition files_of (l : list work) : list string := flat_map (fun w => match w with WFile p => [p] | WDir _ => [] end) l.
Lemma in_files_of p l : In p (files_of l) <-> In (WFile p) l.
Proof.
  unfold files_of. rewrite in_flat_map. split.
  - intros ([q|q] & I & H); cbn in H; intuition subst; auto.
  - intros I. eexists. split; eauto. cbn. auto.
Qed.

Section Run.
Variables (fuel : nat) (e : env) (ls : listing) (c : cconfig) (s : schema) (n : nat) (root : string) (f : fs).
Notation run := (run_work fuel e ls c s).
Notation final sched := (steps run n (start n (WDir root) f) sched).
Hypothesis names : names_ok ls.
Hypothesis sep : separate e ls c root f.

Lemma same_source x y : is_source ls root x -> is_source ls root y -> out_loc e x = out_loc e y -> x = y.
Proof.
  intros Hx Hy E. pose proof (proj2 sep x y Hx Hy E) as E'. destruct Hx as [p Hp], Hy as [q Hq].
  pose proof (outputs_distinct ls root names p q x y Hp Hq E') as ->.
  pose proof (tree_fun ls root q _ _ Hp Hq) as X. inversion X. auto.
Qed.

(** What a single item would do on the initial contents *)
Definition item_result (x : work) (r : report) : Prop := exists f', run x f = Done (f', dir_kids ls x, r).

Definition fs_inv (st : pool work fs report) : Prop :=
  (forall x ch r, In (x, ch, r) (pool_log st) -> item_result x r) /\
  (forall l path, In (WFile path) (completed st) -> l = out_loc e path ->
     exists f' ch r, run (WFile path) f = Done (f', ch, r) /\ ps_ext st l = f' l) /\
  (forall l, (forall path, In (WFile path) (completed st) -> l <> out_loc e path) -> ps_ext st l = f l).

Lemma fs_inv_trans q nw nq l1 w l2 g w' q' nw' nq' g' ab :
  let st := mkp q nw nq (l1 ++ w :: l2) g false in
  (forall path, In (WFile path) (completed st) -> is_source ls root path) ->
  (forall path, In (WFile path) (hands st) -> is_source ls root path) ->
  fs_inv st -> wtrans run n w q nw nq g w' q' nw' nq' g' ab -> fs_inv (mkp q' nw' nq' (l1 ++ w' :: l2) g' ab).
Proof.
  intros st Hc Hh I T. subst st.
  assert (Same : wk_log w' = wk_log w -> g' = g -> fs_inv (mkp q' nw' nq' (l1 ++ w' :: l2) g' ab)).
  { intros El Eg. destruct I as (I1 & I2 & I3). unfold fs_inv, completed, pool_log in *. cbn [mkp ps_workers ps_ext] in *.
    rewrite flat_map_app in *. cbn [flat_map] in *. rewrite El, Eg. auto. }
  inv_trans T; try (apply Same; reflexivity). clear Same.
  destruct I as (I1 & I2 & I3).
  unfold fs_inv, completed, hands, pool_log in *. cbn [mkp ps_workers ps_ext] in *.
  rewrite flat_map_app in *. cbn [flat_map mkw wk_pc wk_log hand] in *.
  set (log := flat_map wk_log l1 ++ l ++ flat_map wk_log l2) in *.
  assert (Pm : forall z, In z (flat_map wk_log l1 ++ (l ++ [(x, ch, r)]) ++ flat_map wk_log l2) <-> z = (x, ch, r) \/ In z log).
  { intros z. unfold log. rewrite !in_app_iff. cbn. intuition. }
  assert (Pc : forall z, In z (List.map (fun e => fst (fst e)) (flat_map wk_log l1 ++ (l ++ [(x, ch, r)]) ++ flat_map wk_log l2)) <->
     z = x \/ In z (List.map (fun e => fst (fst e)) log)).
  { intros z. rewrite !in_map_iff. split.
    - intros (y & <- & Iy). apply Pm in Iy as [->|Iy]; eauto.
    - intros [->|(y & <- & Iy)]; [exists (x, ch, r)|exists y]; (split; auto; apply Pm; auto). }
  pose proof (run_work_kids fuel e ls c s _ _ _ _ _ H) as Ek.
  destruct x as [path|d].
  - (* a file *)
    assert (Sp : is_source ls root path). { apply Hh. apply in_or_app. right. cbn. auto. }
    assert (Ag : forall l0, reads e f c path l0 -> g l0 = f l0).
    { intros l0 Rl. apply I3. intros p' Ip. apply (proj1 sep path p' l0); auto. }
    pose proof (compile_agree e f g c fuel s path Ag) as Sr. unfold same_result in Sr.
    cbn [run_work] in H.
    destruct (compile_file fuel e f c s path) as [[f1 r1]| |] eqn:Ef.
    2, 3: rewrite Sr in H; discriminate.
    destruct Sr as (g1 & Eg & wv & W1 & W2 & _). rewrite Eg in H.
    assert (R : exists rr, run (WFile path) f = Done (f1, [], rr) /\ g1 = g' /\ ch = [] /\ rr = r).
    { cbn [run_work]. rewrite Ef. destruct r1 as [r1|ms]; inversion H; subst; eauto. }
    destruct R as (rr & R & -> & -> & ->).
    split; [|split].
    + intros y ch' r' Iy. apply Pm in Iy as [Iy|Iy]; [|eapply I1; eauto].
      inversion Iy; subst. exists f1. exact R.
    + intros l0 p' Ip ->. apply Pc in Ip as [Ip|Ip].
      * inversion Ip; subst p'. exists f1, [], r. split; auto. rewrite W1, W2.
        destruct wv; auto.
        destruct (in_dec work_eq (WFile path) (List.map (fun e => fst (fst e)) log)) as [Id|Nd].
        -- destruct (I2 _ path Id eq_refl) as (f2 & ch2 & r2 & R2 & E2). rewrite R in R2. inversion R2; subst.
           congruence.
        -- apply I3. intros p' Ip' E. apply Nd. replace path with p'; auto.
           symmetry. apply same_source; auto.
      * destruct (string_dec p' path) as [->|Ne].
        -- exists f1, [], r. split; auto. rewrite W1, W2. destruct wv; auto.
           destruct (I2 _ path Ip eq_refl) as (f2 & ch2 & r2 & R2 & E2). rewrite R in R2. inversion R2; subst. congruence.
        -- destruct (I2 _ p' Ip eq_refl) as (f2 & ch2 & r2 & R2 & E2). exists f2, ch2, r2. split; auto.
           rewrite <- E2. eapply compile_other; eauto. intros E. apply Ne. apply same_source; auto.
    + intros l0 N. rewrite (compile_other _ _ _ _ _ _ _ _ l0 Eg).
      * apply I3. intros p' Ip. apply N. apply Pc. auto.
      * apply N. apply Pc. auto.
  - (* a directory *)
    assert (R : g' = g /\ forall h, run (WDir d) h = Done (h, ch, r)).
    { cbn [run_work] in *. destruct (run_dir_entry ls d); inversion H; subst; auto. }
    destruct R as [-> R].
    split; [|split].
    + intros y ch' r' Iy. apply Pm in Iy as [Iy|Iy]; [|eapply I1; eauto].
      inversion Iy; subst. exists f. apply R.
    + intros l0 p' Ip E. apply Pc in Ip as [Ip|Ip]; [discriminate|]. eauto.
    + intros l0 N. apply I3. intros p' Ip. apply N. apply Pc. auto.
Qed.

Lemma kid_in_tree x : (exists p, in_tree ls root p x) -> Forall (fun y => exists p, in_tree ls root p y) (dir_kids ls x).
Proof.
  intros [p Hp]. apply Forall_forall. intros y I. apply In_nth_error in I as [i Hi].
  exists (p ++ [i]). eapply node_child; eauto.
Qed.

Lemma fs_inv_steps sched : fs_inv (final sched).
Proof.
  assert (X : (Forall (fun y => exists p, in_tree ls root p y) (queued (ps_queue (final sched))) /\
    Forall (fun y => exists p, in_tree ls root p y) (hands (final sched)) /\
    Forall (fun y => exists p, in_tree ls root p y) (completed (final sched))) /\ fs_inv (final sched)).
  { induction sched as [|i sched IH] using rev_ind.
    - split. { apply items_start. exists []. constructor. }
      assert (El : pool_log (@start work fs report n (WDir root) f) = []).
      { unfold start, pool_log. cbn. clear. induction n; cbn; auto. }
      change (final []) with (@start work fs report n (WDir root) f). split; [|split].
      + intros x ch r I. rewrite El in I. destruct I.
      + intros l p I. unfold completed in I. rewrite El in I. destruct I.
      + reflexivity.
    - rewrite steps_app. destruct IH as [(Hq & Hh & Hc) Hi]. split.
      + apply (items_inv run n (dir_kids ls) (run_work_kids fuel e ls c s) _ kid_in_tree [i] _ Hq Hh Hc).
      + cbn. destruct (step_cases run n (final sched) i) as [->|(q & nw & nq & l1 & w & l2 & g & w' & q' & nw' & nq' & g' & ab & E & _ & T & ->)]; auto.
        rewrite E in *. eapply fs_inv_trans; eauto.
        * intros path I. rewrite Forall_forall in Hc. exact (Hc _ I).
        * intros path I. rewrite Forall_forall in Hh. exact (Hh _ I). }
  apply X.
Qed.
End Run.
