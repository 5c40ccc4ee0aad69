(** Panics and termination of import processing. *)
From Verif Require Export ImportMain.

Section Walk.
Variables (e : env) (f : fs) (c : cconfig).

(** ** Panics come from unclosed import lines *)
Definition has_open (file contents : string) : Prop :=
  exists F C, importer e f c file contents F C /\ open_in (lines C).

Lemma loop_panics rec file : (forall m mo im ms, rec m mo im ms = Panics -> has_open m mo) ->
  forall ls pre im ms,
  imp_loop rec e f c file (List.length pre) ls im ms = Panics ->
  open_in ls \/ exists F C, reach_from e f c file pre ls F C /\ open_in (lines C).
Proof.
  intros Rok. induction ls as [|line ls IH]; intros pre im ms H; [discriminate|].
  assert (Len : S (List.length pre) = List.length (pre ++ [line])) by (rewrite app_length; cbn; lia).
  cbn [imp_loop] in H. destruct (line_kinds c (path_pop file) line) as
    [Sk Le Nq Nu|E1 E2 E3 Nl|E1 E2 E3 Le U|q t0 E1 E2 E3 Le Q Rs Nu].
  - assert (H' : imp_loop rec e f c file (S (List.length pre)) ls im ms = Panics).
    { destruct Sk as [E|(E1 & E2 & E3)]; [rewrite E in H; auto|rewrite E1, E2, E3 in H; auto]. }
    rewrite Len in H'. destruct (IH _ _ _ H') as [O|(F & C & R & O)].
    + left. apply open_in_up; auto.
    + right. exists F, C. split; auto. apply reach_from_skip; auto.
  - rewrite E1, E2, E3 in H. discriminate.
  - left. exists 0, line. split; auto. split; auto. intros j l' L. lia.
  - rewrite E1, E2, E3 in H. unfold read_file in H. destruct (f (env_locate e t0)) as [other|err] eqn:R0.
    + destruct (rec t0 other im ms) as [[im1 ms1]| |] eqn:Er; try discriminate.
      * rewrite Len in H. destruct (IH _ _ _ H) as [O|(F & C & R & O)].
        -- left. apply open_in_up; auto.
        -- right. exists F, C. split; auto. eapply reach_from_ok; eauto.
      * right. destruct (Rok _ _ _ _ Er) as (F & C & I & O). exists F, C. split; auto. eapply reach_from_ok; eauto.
    + rewrite Len in H. destruct (IH _ _ _ H) as [O|(F & C & R & O)].
      * left. apply open_in_up; auto.
      * right. exists F, C. split; auto. eapply reach_from_err; eauto.
Qed.
Lemma add_imports_panics fuel : forall file contents im ms,
  add_imports fuel e f c file contents im ms = Panics -> has_open file contents.
Proof.
  induction fuel as [|k IH]; intros file contents im ms H; [discriminate|].
  rewrite add_imports_S in H. apply (loop_panics _ _ IH (lines contents) []) in H.
  destruct H as [O|(F & C & R & O)].
  - exists file, contents. split; auto. left. auto.
  - exists F, C. split; auto. right. apply reach_from_nil. auto.
Qed.

(** ** More fuel does not change a result *)
Lemma loop_mono rec rec' file :
  (forall m mo im ms, rec m mo im ms <> Diverges -> rec' m mo im ms = rec m mo im ms) ->
  forall ls n im ms, imp_loop rec e f c file n ls im ms <> Diverges ->
  imp_loop rec' e f c file n ls im ms = imp_loop rec e f c file n ls im ms.
Proof.
  intros M. induction ls as [|line ls IH]; intros n im ms H; [reflexivity|]. cbn [imp_loop] in *.
  destruct (is_empty line || is_empty (trim line)); auto.
  destruct (negb (starts_with import_start line)); [destruct (starts_with "#" line); auto|].
  destruct (import_target c line (path_pop file)) as [t|]; auto.
  destruct (read_file e f t) as [other|m]; auto.
  assert (N : rec t other im ms <> Diverges). { intros X. rewrite X in H. congruence. }
  rewrite (M _ _ _ _ N). destruct (rec t other im ms) as [[im' ms']| |]; auto.
Qed.
Lemma add_imports_mono k k' file contents im ms :
  k <= k' -> add_imports k e f c file contents im ms <> Diverges ->
  add_imports k' e f c file contents im ms = add_imports k e f c file contents im ms.
Proof.
  revert k' file contents im ms. induction k as [|k IH]; intros k' file contents im ms L H; [cbn in H; congruence|].
  destruct k' as [|k']; [lia|]. rewrite !add_imports_S in *. apply loop_mono; auto.
  intros m mo im1 ms1 N. apply IH; auto. lia.
Qed.

(** ** Termination *)
Lemma loop_term file : forall ls pre,
  (forall n l m mo, import_in c file pre ls n l m -> f (env_locate e m) = Ok mo ->
     exists N, forall k, N <= k -> forall im ms, add_imports k e f c m mo im ms <> Diverges) ->
  exists N, forall k, N <= k -> forall im ms,
    imp_loop (add_imports k e f c) e f c file (List.length pre) ls im ms <> Diverges.
Proof.
  induction ls as [|line ls IH]; intros pre H; [exists 0; discriminate|].
  assert (Len : S (List.length pre) = List.length (pre ++ [line])) by (rewrite app_length; cbn; lia).
  destruct (line_kinds c (path_pop file) line) as
    [Sk Le Nq Nu|E1 E2 E3 Nl|E1 E2 E3 Le U|q t0 E1 E2 E3 Le Q Rs Nu].
  - destruct (IH (pre ++ [line])) as (N & HN).
    { intros n l m mo I. apply (H n l m mo). apply import_in_skip; auto. }
    exists N. intros k L im ms. cbn [imp_loop]. rewrite Len.
    destruct Sk as [E|(E1 & E2 & E3)]; [rewrite E|rewrite E1, E2, E3]; apply HN; auto.
  - exists 0. intros k L im ms. cbn [imp_loop]. rewrite E1, E2, E3. discriminate.
  - exists 0. intros k L im ms. cbn [imp_loop]. rewrite E1, E2, E3. discriminate.
  - destruct (IH (pre ++ [line])) as (N & HN).
    { intros n l m mo I. apply (H n l m mo). apply (import_in_cons c file pre line ls n l m q t0); auto. }
    destruct (f (env_locate e t0)) as [other|err] eqn:R0.
    + destruct (H (List.length pre) line t0 other) as (N0 & HN0); auto.
      { apply (import_in_cons c file pre line ls _ _ _ q t0); auto. }
      exists (N + N0). intros k L im ms. cbn [imp_loop]. rewrite E1, E2, E3. unfold read_file. rewrite R0, Len.
      specialize (HN0 k ltac:(lia) im ms). destruct (add_imports k e f c t0 other im ms) as [[im' ms']| |]; try congruence.
      apply HN. lia.
    + exists N. intros k L im ms. cbn [imp_loop]. rewrite E1, E2, E3. unfold read_file. rewrite R0, Len. apply HN. lia.
Qed.
Lemma acyclic_terminates path : acyclic e f c path -> forall contents, f (env_locate e path) = Ok contents ->
  exists N, forall k, N <= k -> forall im ms, add_imports k e f c path contents im ms <> Diverges.
Proof.
  induction 1 as [path _ IH]. intros contents R.
  destruct (loop_term path (lines contents) []) as (N & HN).
  { intros n l m mo I Rm. apply (IH m); auto. exists contents, n, l, mo. split; auto. split; auto.
    apply import_in_nil. auto. }
  exists (S N). intros [|k] L im ms; [lia|]. rewrite add_imports_S. apply HN. lia.
Qed.

Lemma loop_done_rec rec file : forall ls pre im ms r,
  imp_loop rec e f c file (List.length pre) ls im ms = Done r ->
  forall n l m mo, import_in c file pre ls n l m -> f (env_locate e m) = Ok mo ->
  exists im1 ms1 r1, rec m mo im1 ms1 = Done r1.
Proof.
  induction ls as [|line ls IH]; intros pre im ms r H n l m mo I R.
  { destruct I as (q & [|k] & _ & E & _); cbn in E; discriminate. }
  assert (Len : S (List.length pre) = List.length (pre ++ [line])) by (rewrite app_length; cbn; lia).
  cbn [imp_loop] in H. destruct (line_kinds c (path_pop file) line) as
    [Sk Le Nq Nu|E1 E2 E3 Nl|E1 E2 E3 Le U|q t0 E1 E2 E3 Le Q Rs Nu].
  - assert (H' : imp_loop rec e f c file (S (List.length pre)) ls im ms = Done r).
    { destruct Sk as [E|(E1 & E2 & E3)]; [rewrite E in H; auto|rewrite E1, E2, E3 in H; auto]. }
    rewrite Len in H'. eapply IH; eauto. apply import_in_skip; eauto.
  - exfalso. eapply import_in_stop; eauto.
  - rewrite E1, E2, E3 in H. discriminate.
  - rewrite E1, E2, E3 in H. unfold read_file in H.
    apply (import_in_cons c file pre line ls n l m q t0 Q Rs Le) in I.
    destruct (f (env_locate e t0)) as [other|err] eqn:R0.
    + destruct (rec t0 other im ms) as [[im1 ms1]| |] eqn:Er; try discriminate.
      destruct I as [(-> & -> & ->)|I].
      * rewrite R0 in R. inversion R; subst. eauto.
      * rewrite Len in H. eapply IH; eauto.
    + destruct I as [(-> & -> & ->)|I]; [congruence|]. rewrite Len in H. eapply IH; eauto.
Qed.
Lemma done_acyclic k : forall path contents im ms r, f (env_locate e path) = Ok contents ->
  add_imports k e f c path contents im ms = Done r -> acyclic e f c path.
Proof.
  induction k as [|k IH]; intros path contents im ms r R H; [discriminate|].
  rewrite add_imports_S in H. constructor. intros b (contents' & n & l & other & R' & I & Rb).
  rewrite R in R'. inversion R'; subst contents'. apply import_in_nil in I.
  destruct (loop_done_rec _ _ (lines contents) [] _ _ _ H n l b other I Rb) as (im1 & ms1 & r1 & H1).
  eapply IH; eauto.
Qed.
End Walk.

(** A ranking of file locations that decreases along imports excludes infinite chains *)
Lemma rank_acyclic e f c (rank : string -> nat) :
  (forall a b, import_step e f c b a -> rank (env_locate e b) < rank (env_locate e a)) ->
  forall path, acyclic e f c path.
Proof.
  intros D. assert (K : forall n path, rank (env_locate e path) < n -> acyclic e f c path).
  { induction n as [|n IH]; intros path L; [lia|]. constructor. intros b S0. apply IH.
    specialize (D _ _ S0). lia. }
  intros path. eapply K. apply Nat.lt_succ_diag_r.
Qed.
