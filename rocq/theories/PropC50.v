(** C50: the installer never unpacks an unverified archive. *)
From Verif Require Import Npm BaseFacts.

(** The checksum recorded for this machine *)
Definition recorded (e : npm_env) (sum : string) : Prop :=
  exists p a t, In (p, a, t) [("darwin", "x64", "x86_64-apple-darwin"); ("darwin", "arm64", "aarch64-apple-darwin");
                              ("linux", "x64", "x86_64-unknown-linux-musl"); ("linux", "arm64", "aarch64-unknown-linux-musl")] /\
    np_id e = p +++ "-" +++ a /\ np_checksums e t = Some sum.
Definition verified (e : npm_env) (x : string) : Prop := exists sum, recorded e sum /\ sum <> "" /\ np_sha256 e x = sum.

(** A request to [url], being the [n]-th, ends after redirects in the body [x] / in a failure *)
Inductive serves (e : npm_env) : nat -> string -> string -> Prop :=
| serves_body n url x : np_get e n url = RBody x -> serves e n url x
| serves_moved n url l x : np_get e n url = RMoved l -> serves e (S n) l x -> serves e n url x.

Lemma target_table id t : get_target id = Some t ->
  exists p a, In (p, a, t) [("darwin", "x64", "x86_64-apple-darwin"); ("darwin", "arm64", "aarch64-apple-darwin");
                            ("linux", "x64", "x86_64-unknown-linux-musl"); ("linux", "arm64", "aarch64-unknown-linux-musl")] /\
    id = p +++ "-" +++ a.
Proof.
  unfold get_target.
  destruct (String.eqb id "darwin-x64") eqn:E1; [apply String.eqb_eq in E1; subst; intros H; inversion H; exists "darwin", "x64"; split; [cbn; tauto|reflexivity]|].
  destruct (String.eqb id "darwin-arm64") eqn:E2; [apply String.eqb_eq in E2; subst; intros H; inversion H; exists "darwin", "arm64"; split; [cbn; tauto|reflexivity]|].
  destruct (String.eqb id "linux-x64") eqn:E3; [apply String.eqb_eq in E3; subst; intros H; inversion H; exists "linux", "x64"; split; [cbn; tauto|reflexivity]|].
  destruct (String.eqb id "linux-arm64") eqn:E4; [apply String.eqb_eq in E4; subst; intros H; inversion H; exists "linux", "arm64"; split; [cbn; tauto|reflexivity]|].
  discriminate.
Qed.
Lemma table_target p a t : In (p, a, t) [("darwin", "x64", "x86_64-apple-darwin"); ("darwin", "arm64", "aarch64-apple-darwin");
                            ("linux", "x64", "x86_64-unknown-linux-musl"); ("linux", "arm64", "aarch64-unknown-linux-musl")] ->
  get_target (p +++ "-" +++ a) = Some t.
Proof. cbn. intros [H|[H|[H|[H|[]]]]]; inversion H; reflexivity. Qed.
Lemma checksum_ok e t x : get_target (np_id e) = Some t -> (checksum e t x = true <-> verified e x).
Proof.
  intros T. unfold checksum. split.
  - destruct (np_checksums e t) as [sum|] eqn:Es; [|discriminate]. rewrite andb_true_iff. intros [N E].
    apply String.eqb_eq in E. exists sum. split; [|split; auto; intros ->; discriminate].
    destruct (target_table _ _ T) as (p & a & I & Ei). exists p, a, t. auto.
  - intros (sum & (p & a & t' & I & Ei & Es) & N & E). apply table_target in I. rewrite <- Ei, T in I. inversion I; subst t'.
    rewrite Es. apply andb_true_iff. split; [destruct sum; [congruence|reflexivity]|]. apply String.eqb_eq. auto.
Qed.
Lemma download_ok fuel e : forall n url d b acts d', download fuel e n url d = Some (b, acts, d') ->
  (forall x, ~ In (AUnpack x) acts) /\ (b = true -> exists x, d' = Some x /\ serves e n url x) /\
  (b = false -> forall x, ~ serves e n url x).
Proof.
  induction fuel as [|k IH]; intros n url d b acts d'; cbn; [discriminate|].
  destruct (np_get e n url) as [x|l|c|] eqn:G.
  - intros H; inversion H; subst. split; [intros y [|[|[]]]; discriminate|].
    split; [|discriminate]. intros _. exists x. split; auto. constructor. auto.
  - destruct (download k e (S n) l d) as [[[b1 a1] d1]|] eqn:D; [|discriminate]. intros H; inversion H; subst.
    destruct (IH _ _ _ _ _ _ D) as (U & T & F). split; [intros y [|I]; [discriminate|eapply U; eauto]|]. split.
    + intros Eb. destruct (T Eb) as (x & Ed & S0). exists x. split; auto. eapply serves_moved; eauto.
    + intros Eb x S0. inversion S0; subst; [congruence|]. rewrite G in *. inversion H0; subst. eapply F; eauto.
  - intros H; inversion H; subst. split; [intros y [|[|[]]]; discriminate|]. split; [discriminate|].
    intros _ x S0. inversion S0; congruence.
  - intros H; inversion H; subst. split; [intros y [|[|[]]]; discriminate|]. split; [discriminate|].
    intros _ x S0. inversion S0; congruence.
Qed.

(** Only a verified archive is unpacked *)
Theorem C50_unpacks_verified : forall fuel e code acts d x, install fuel e = Some (code, acts, d) ->
  In (AUnpack x) acts -> verified e x.
Proof.
  intros fuel e code acts d x. unfold install. destruct (get_target (np_id e)) as [t|] eqn:T; [|intros H; inversion H; subst; intros []].
  destruct (download fuel e 0 (archive_url e t) None) as [[[ok da] d1]|] eqn:D; [|discriminate].
  destruct (download_ok _ _ _ _ _ _ _ _ D) as (U & _ & _).
  assert (U' : forall x, ~ In (AUnpack x) ((if np_bin_exists e then [] else [AMkdir]) ++ da)).
  { intros y I. apply in_app_or in I. destruct I as [I|I]; [|eapply U; eauto]. destruct (np_bin_exists e); [destruct I|destruct I as [I|[]]; discriminate]. }
  set (acts0 := (if np_bin_exists e then [] else [AMkdir]) ++ da) in *. clearbody acts0.
  destruct (negb ok || negb (np_bin_exists e || np_mkdir_ok e)); [intros H; inversion H; subst; intros I; exfalso; eapply U'; eauto|].
  destruct d1 as [y|]; [|intros H; inversion H; subst; intros I; exfalso; eapply U'; eauto].
  destruct (checksum e t y) eqn:C.
  - intros H I. assert (In (AUnpack x) (acts0 ++ [AUnpack y]) \/ In (AUnpack x) [ADelete; AChmod]) as J.
    { destruct (np_tar e y) as [[|]|]; inversion H; subst; auto. apply in_app_or in I. auto. }
    assert (x = y) as ->.
    { destruct J as [J|[J|[J|[]]]]; try discriminate. apply in_app_or in J. destruct J as [J|[J|[]]]; [exfalso; eapply U'; eauto|congruence]. }
    apply (checksum_ok e t y T). auto.
  - intros H; inversion H; subst. intros I. apply in_app_or in I. destruct I as [I|[I|[]]]; [exfalso; eapply U'; eauto|discriminate].
Qed.
Print Assumptions C50_unpacks_verified.

(** A downloaded archive that does not verify is deleted and the installation fails *)
Theorem C50_rejects : forall fuel e code acts d t x, install fuel e = Some (code, acts, d) ->
  get_target (np_id e) = Some t -> np_bin_exists e || np_mkdir_ok e = true ->
  serves e 0 (archive_url e t) x -> ~ verified e x ->
  code = 1 /\ In ADelete acts /\ (forall y, ~ In (AUnpack y) acts) /\ (np_unlink_ok e = true -> d = None).
Proof.
  intros fuel e code acts d t x H T B Sv N. unfold install in H. rewrite T in H.
  destruct (download fuel e 0 (archive_url e t) None) as [[[ok da] d1]|] eqn:D; [|discriminate].
  destruct (download_ok _ _ _ _ _ _ _ _ D) as (U & Ht & Hf).
  destruct ok; [|exfalso; eapply Hf; eauto]. destruct (Ht eq_refl) as (y & -> & Sy).
  assert (y = x) as ->.
  { clear - Sv Sy. induction Sv; inversion Sy; subst; try congruence. apply IHSv. congruence. }
  rewrite B in H. cbn [negb orb] in H.
  destruct (checksum e t x) eqn:C; [exfalso; apply N; apply (checksum_ok e t x T); auto|].
  inversion H; subst. split; auto. split; [apply in_or_app; cbn; auto|]. split.
  - intros y I. apply in_app_or in I. destruct I as [I|[I|[]]]; [|discriminate].
    apply in_app_or in I. destruct I as [I|I]; [destruct (np_bin_exists e); [destruct I|destruct I as [I|[]]; discriminate]|eapply U; eauto].
  - intros Un. unfold unlink. rewrite Un. auto.
Qed.
Print Assumptions C50_rejects.

(** Success means: the archive served for this machine verified, was unpacked, and nothing is left *)
Theorem C50_success : forall fuel e acts d, install fuel e = Some (0, acts, d) ->
  exists t x, get_target (np_id e) = Some t /\ serves e 0 (archive_url e t) x /\ verified e x /\
    In (AUnpack x) acts /\ np_tar e x = Some 0 /\ d = None.
Proof.
  intros fuel e acts d H. unfold install in H. destruct (get_target (np_id e)) as [t|] eqn:T; [|discriminate].
  destruct (download fuel e 0 (archive_url e t) None) as [[[ok da] d1]|] eqn:D; [|discriminate].
  destruct (download_ok _ _ _ _ _ _ _ _ D) as (U & Ht & Hf).
  destruct ok; [|cbn in H; discriminate]. destruct (Ht eq_refl) as (x & -> & Sx).
  destruct (negb true || negb (np_bin_exists e || np_mkdir_ok e)); [discriminate|].
  destruct (checksum e t x) eqn:C; [|discriminate].
  destruct (np_tar e x) as [[|]|] eqn:Et; try discriminate.
  unfold unlink in H. destruct (np_unlink_ok e) eqn:Eu; [|discriminate].
  destruct (np_chmod_ok e); [|discriminate]. inversion H; subst.
  exists t, x. split; auto. split; auto. split; [apply (checksum_ok e t x T); auto|].
  split; [|auto]. apply in_or_app. left. apply in_or_app. right. cbn. auto.
Qed.
Print Assumptions C50_success.

(** The exit code in general: 0 exactly if the archive of this machine was served, verified, unpacked, deleted and made executable, in a
    directory that exists or can be made; otherwise 1 *)
Definition installs (e : npm_env) : Prop :=
  (np_bin_exists e = true \/ np_mkdir_ok e = true) /\ np_unlink_ok e = true /\ np_chmod_ok e = true /\
  exists t x, get_target (np_id e) = Some t /\ serves e 0 (archive_url e t) x /\ verified e x /\ np_tar e x = Some 0.
Lemma serves_one e : forall n url x y, serves e n url x -> serves e n url y -> x = y.
Proof. intros n url x y H. revert y. induction H; intros y Hy; inversion Hy; subst; try congruence. apply IHserves. congruence. Qed.
Theorem C50_exit : forall fuel e code acts d, install fuel e = Some (code, acts, d) ->
  (code = 0 \/ code = 1) /\ (code = 0 <-> installs e).
Proof.
  intros fuel e code acts d H. unfold install in H. destruct (get_target (np_id e)) as [t|] eqn:T.
  2:{ injection H as <- _ _. split; auto. split; [discriminate|]. intros (_ & _ & _ & t & x & T' & _). congruence. }
  destruct (download fuel e 0 (archive_url e t) None) as [[[ok da] d1]|] eqn:D; [|discriminate].
  destruct (download_ok _ _ _ _ _ _ _ _ D) as (_ & Ht & Hf).
  destruct ok.
  2:{ cbn in H. injection H as <- _ _. split; auto. split; [discriminate|]. intros (_ & _ & _ & t' & x & T' & Sv & _). rewrite T in T'. injection T' as <-.
      destruct (Hf eq_refl x Sv). }
  destruct (Ht eq_refl) as (x & -> & Sx).
  assert (X : installs e <-> (np_bin_exists e || np_mkdir_ok e = true) /\ np_unlink_ok e = true /\ np_chmod_ok e = true /\ verified e x /\ np_tar e x = Some 0).
  { rewrite orb_true_iff. split.
    - intros (A & B & C & t' & x' & T' & Sv & V & R). rewrite T in T'. injection T' as <-. rewrite (serves_one _ _ _ _ _ Sx Sv). auto.
    - intros (A & B & C & V & R). split; auto. split; auto. split; auto. exists t, x. auto. }
  cbn [negb orb] in H. destruct (np_bin_exists e || np_mkdir_ok e); cbn [negb] in H.
  2:{ injection H as <- _ _. split; auto. split; [discriminate|]. intros I. apply X in I. destruct I. discriminate. }
  destruct (checksum e t x) eqn:C.
  2:{ injection H as <- _ _. split; auto. split; [discriminate|]. intros I. apply X in I. destruct I as (_ & _ & _ & V & _).
      apply (checksum_ok e t x T) in V. congruence. }
  apply (checksum_ok e t x T) in C.
  destruct (np_tar e x) as [[|k]|].
  - destruct (np_unlink_ok e), (np_chmod_ok e); cbn in H; injection H as <- _ _; (split; [auto|]); rewrite X; split; intuition discriminate.
  - injection H as <- _ _. split; auto. rewrite X. split; [discriminate|]. intros (_ & _ & _ & _ & Y). discriminate.
  - injection H as <- _ _. split; auto. rewrite X. split; [discriminate|]. intros (_ & _ & _ & _ & Y). discriminate.
Qed.
Print Assumptions C50_exit.

(** Conversely a served, verifying archive that tar accepts installs *)
Theorem C50_installs : forall e t x, get_target (np_id e) = Some t -> serves e 0 (archive_url e t) x ->
  verified e x -> np_bin_exists e || np_mkdir_ok e = true -> np_unlink_ok e = true -> np_chmod_ok e = true ->
  np_tar e x = Some 0 -> exists N, forall fuel, N <= fuel -> exists acts, install fuel e = Some (0, acts, None).
Proof.
  intros e t x T Sv V B Eu Ec Et.
  assert (D : exists N, forall fuel, N <= fuel -> exists acts, download fuel e 0 (archive_url e t) None = Some (true, acts, Some x)).
  { clear - Sv. induction Sv as [n url x G|n url l x G _ (N & IH)].
    - exists 1. intros [|k] L; [lia|]. cbn. rewrite G. eauto.
    - exists (S N). intros [|k] L; [lia|]. cbn. rewrite G. destruct (IH k) as (acts & ->); [lia|]. eauto. }
  destruct D as (N & D). exists N. intros fuel L. destruct (D fuel L) as (acts & E).
  unfold install. rewrite T, E, B. cbn [negb orb]. rewrite (proj2 (checksum_ok e t x T) V), Et, Eu, Ec. unfold unlink. rewrite Eu.
  eexists. reflexivity.
Qed.
Print Assumptions C50_installs.

(** Non-vacuity: one redirect, then an archive whose hash is its own text; and a wrong one *)
Definition npm_example (served : string) : npm_env :=
  {| np_id := "linux-x64"; np_version := "1.0.0";
     np_checksums := fun t => if String.eqb t "x86_64-unknown-linux-musl" then Some "good" else None;
     np_sha256 := fun x => x; np_get := fun n _ => match n with O => RMoved "https://cdn" | _ => RBody served end;
     np_bin_exists := false; np_mkdir_ok := true; np_unlink_ok := true; np_chmod_ok := true; np_tar := fun _ => Some 0 |}.
Example C50_nonvacuous_good : exists acts, install 5 (npm_example "good") = Some (0, acts, None) /\ In (AUnpack "good") acts.
Proof. eexists. split; [reflexivity|]. cbn. tauto. Qed.
Example C50_nonvacuous_bad : exists acts, install 5 (npm_example "evil") = Some (1, acts, None) /\ In ADelete acts /\ ~ In (AUnpack "evil") acts.
Proof. eexists. split; [reflexivity|]. split; [cbn; tauto|]. cbn. intuition discriminate. Qed.
