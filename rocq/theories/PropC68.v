(** C68: what a release publishes is what its installer asks for and accepts. *)
From Verif Require Import Release ReleaseFacts SpecJtext PropC50 PropC67 BaseFacts TextFacts.
Require Import Lia Permutation.

(** Versions: letters, digits, dots and hyphens *)
Definition version_char (c : ascii) : Prop :=
  let n := nat_of_ascii c in
  48 <= n <= 57 \/ 65 <= n <= 90 \/ 97 <= n <= 122 \/ c = "."%char \/ c = "-"%char.
Definition version_ok (v : string) : Prop := v <> "" /\ all version_char v.
(** Hashes in hexadecimal *)
Definition hex_char (c : ascii) : Prop := let n := nat_of_ascii c in 48 <= n <= 57 \/ 97 <= n <= 102.
(** A hash function gives such a text; the shell lists every file of a directory once *)
Definition sound_tools (e : release_env) : Prop :=
  (forall x, re_sha256 e x <> "" /\ all hex_char (re_sha256 e x)) /\ (forall l, Permutation (re_order e l) l).

(** The only member of that name *)
Definition sole_member (k : string) (j v : json) : Prop :=
  exists pre post, j = JObj (pre ++ (k, v) :: post) /\ ~ In k (List.map fst pre) /\ ~ In k (List.map fst post).
(** Machines and the build each one needs *)
Definition machines : list (string * string * string) :=
  [("darwin", "x64", "x86_64-apple-darwin"); ("darwin", "arm64", "aarch64-apple-darwin");
   ("linux", "x64", "x86_64-unknown-linux-musl"); ("linux", "arm64", "aarch64-unknown-linux-musl")].

(** The published package as its installer reads it *)
Definition reads_package (text : string) (ie : npm_env) : Prop :=
  exists j cs, text_holds text j /\ sole_member "version" j (JStr (np_version ie)) /\ sole_member "checksumConfig" j cs /\
    forall t s, np_checksums ie t = Some s <-> sole_member t cs (JStr s).
(** GitHub serves the files of the release under their names, possibly after redirects *)
Definition github_serves (gh : github_release) (ie : npm_env) : Prop :=
  forall name x, In (name, x) (gh_assets gh) ->
    serves ie 0 ("https://github.com/notarize/qlc/releases/download/" +++ gh_tag gh +++ "/" +++ name) x.

(** ** Proof *)
Lemma version_lacks v c : ~ version_char c -> all version_char v -> lacks c v.
Proof. intros N. apply all_mono. intros d D ->. auto. Qed.
Lemma hex_lacks v c : ~ hex_char c -> all hex_char v -> lacks c v.
Proof. intros N. apply all_mono. intros d D ->. auto. Qed.
Lemma other_char c d : nat_of_ascii c <> nat_of_ascii d -> c <> d.
Proof. congruence. Qed.
Lemma version_codes c : version_char c -> 45 <= nat_of_ascii c <= 122 /\ nat_of_ascii c <> 64 /\ nat_of_ascii c <> 92.
Proof. intros [V|[V|[V|[->| ->]]]]; cbn; lia. Qed.
Lemma version_ascii v : all version_char v -> all ascii_char v.
Proof.
  apply all_mono. intros c V. apply version_codes in V. split; [|lia]. split; [lia|].
  split; apply other_char; cbn; lia.
Qed.
Lemma hex_ascii v : all hex_char v -> all ascii_char v.
Proof.
  apply all_mono. intros c V. unfold hex_char in V. split; [|lia]. split; [lia|]. split; apply other_char; cbn; lia.
Qed.
Lemma version_free v : all version_char v -> lacks "@" v /\ lacks " " v /\ lacks (ascii_of_nat 10) v.
Proof.
  intros A. repeat split; revert A; apply all_mono; intros c V; apply version_codes in V; apply other_char; cbn; lia.
Qed.
Lemma hex_free v : all hex_char v -> lacks "@" v /\ lacks "q" v /\ all (fun c => is_space c = false) v.
Proof.
  intros A. repeat split; revert A; apply all_mono; intros c V; unfold hex_char in V; try (apply other_char; cbn; lia).
  destruct (is_space c) eqn:E; auto. exfalso. revert V. clear - E. destruct c as [[] [] [] [] [] [] [] []]; try discriminate E; cbn; lia.
Qed.

Definition files_of (e : release_env) (v : string) : list (string * string) :=
  List.map (fun p => (release_archive v p, re_tarball e p)) platforms.
Lemma archives_all e v : archives v (re_tarball e) platforms = Some (files_of e v).
Proof. reflexivity. Qed.

Lemma matching_line e v p f : sound_tools e -> In p platforms ->
  In f (files_of e v ++ match re_seen e with Some x => [("checksums.txt", x)] | None => [] end) ->
  bre_match (release_archive v p) (sum_line (re_sha256 e) f) = true -> f = (release_archive v p, re_tarball e p).
Proof.
  intros [S _] P I M. unfold sum_line in M. destruct (S (snd f)) as [_ X]. rewrite match_line in M by apply hex_free, X.
  apply in_app_or in I. destruct I as [I|I].
  - unfold files_of in I. apply in_map_iff in I. destruct I as (p' & <- & P'). cbn [fst] in M. apply match_names in M; auto. subst. auto.
  - destruct (re_seen e); [|destruct I]. destruct I as [<-|[]]. cbn [fst] in M. unfold release_archive in M. cbn [String.append] in M.
    rewrite (match_lacks "q") in M; [discriminate|discriminate|]. vm_compute. intuition discriminate.
Qed.
Lemma checksum_found e v p listed : sound_tools e -> all version_char v -> In p platforms ->
  Permutation listed (files_of e v ++ match re_seen e with Some x => [("checksums.txt", x)] | None => [] end) ->
  checksum_of (List.map (sum_line (re_sha256 e)) listed) v p = Some (re_sha256 e (re_tarball e p)).
Proof.
  intros S V P Pm. unfold checksum_of.
  destruct (List.filter (bre_match (release_archive v p)) (List.map (sum_line (re_sha256 e)) listed)) as [|l ls] eqn:F.
  - exfalso. assert (I : In (sum_line (re_sha256 e) (release_archive v p, re_tarball e p)) (List.filter (bre_match (release_archive v p)) (List.map (sum_line (re_sha256 e)) listed))).
    { apply filter_In. split.
      - apply in_map. eapply Permutation_in; [apply Permutation_sym, Pm|]. apply in_or_app. left. unfold files_of. apply (in_map (fun p => (release_archive v p, re_tarball e p))). auto.
      - unfold sum_line. cbn [fst snd]. destruct S as [S _]. destruct (S (re_tarball e p)) as [_ X].
        rewrite match_line by apply hex_free, X. apply match_names; auto. }
    rewrite F in I. destruct I.
  - assert (I : In l (List.filter (bre_match (release_archive v p)) (List.map (sum_line (re_sha256 e)) listed))) by (rewrite F; left; auto).
    apply filter_In in I. destruct I as [I M]. apply in_map_iff in I. destruct I as (f & <- & I).
    apply (Permutation_in _ Pm) in I. rewrite (matching_line e v p f S P I M). unfold sum_line. cbn [fst snd].
    destruct S as [S _]. destruct (S (re_tarball e p)) as [_ X]. f_equal. apply first_word_app. apply hex_free, X.
Qed.

Definition release_text (e : release_env) (v : string) : string :=
  let c p := re_sha256 e (re_tarball e p) in
  joined (pieces_of v (c "aarch64-apple-darwin") (c "x86_64-apple-darwin") (c "aarch64-unknown-linux-musl") (c "x86_64-unknown-linux-musl")).
Opaque package_template.
Lemma release_is e v : version_ok v -> sound_tools e ->
  release e v = Some (github_of v (files_of e v ++ [("checksums.txt", re_final e)]), npm_of v (release_text e v)).
Proof.
  intros [_ V] S. destruct (version_free _ V) as (At & Sp & Nl). unfold release. rewrite version_read by auto.
  rewrite archives_all. set (listed := re_order e _).
  assert (Pm : Permutation listed (files_of e v ++ match re_seen e with Some x => [("checksums.txt", x)] | None => [] end)) by apply S.
  clearbody listed. unfold package_json, platforms. cbn [fill_checksums].
  rewrite !(fun p I => checksum_found e v p listed S V I Pm) by (cbn; tauto).
  assert (L : forall p, lacks "@" (re_sha256 e (re_tarball e p))).
  { intros p. destruct S as [S _]. destruct (S (re_tarball e p)) as [_ X]. apply hex_free, X. }
  pose proof (filled v _ _ _ _ At (L "x86_64-unknown-linux-musl") (L "aarch64-unknown-linux-musl") (L "x86_64-apple-darwin") (L "aarch64-apple-darwin")) as F.
  unfold H0, H1, H2, H3, H4, hole in F. rewrite F. reflexivity.
Qed.

Lemma sole_one k j v v' : sole_member k j v -> sole_member k j v' -> v = v'.
Proof.
  intros (pre & post & -> & N1 & N2) (pre' & post' & E & N1' & N2'). inversion E as [E']. clear E.
  revert pre' E' N1 N1'. induction pre as [|[a x] pre IH]; intros [|[a' x'] pre'] E' N1 N1'; cbn in *; inversion E'; subst.
  - auto.
  - exfalso. apply N1'. auto.
  - exfalso. apply N1. auto.
  - apply (IH pre'); auto.
Qed.
Lemma sole_at k j v : match j with JObj l => exists n, nth_error l n = Some (k, v) /\ ~ In k (List.map fst (firstn n l)) /\ ~ In k (List.map fst (skipn (S n) l)) | _ => False end ->
  sole_member k j v.
Proof.
  destruct j as [| | | | | |l|]; try tauto. intros (n & E & N1 & N2). exists (firstn n l), (skipn (S n) l). split; [|split; auto].
  f_equal. clear N1 N2. revert n E. induction l as [|y l IH]; intros [|n] E; try discriminate; cbn in *.
  - inversion E. auto.
  - f_equal. apply IH. auto.
Qed.
Lemma package_members v c1 c2 c3 c4 : exists cs,
  sole_member "version" (package_value v c1 c2 c3 c4) (JStr v) /\ sole_member "checksumConfig" (package_value v c1 c2 c3 c4) cs /\
  sole_member "aarch64-apple-darwin" cs (JStr c1) /\ sole_member "x86_64-apple-darwin" cs (JStr c2) /\
  sole_member "aarch64-unknown-linux-musl" cs (JStr c3) /\ sole_member "x86_64-unknown-linux-musl" cs (JStr c4).
Proof.
  eexists. unfold package_value.
  split; [apply sole_at; exists 1; split; [reflexivity|cbn; intuition discriminate]|].
  split; [apply sole_at; exists 9; split; [reflexivity|cbn; intuition discriminate]|].
  split; [apply sole_at; exists 0; split; [reflexivity|cbn; intuition discriminate]|].
  split; [apply sole_at; exists 1; split; [reflexivity|cbn; intuition discriminate]|].
  split; [apply sole_at; exists 2; split; [reflexivity|cbn; intuition discriminate]|].
  apply sole_at; exists 3; split; [reflexivity|cbn; intuition discriminate].
Qed.

(** ** The release: one tag, the version everywhere, all builds under the expected names, and their checksums in
    the package, whatever the order of the archives and whether or not checksums.txt was listed among them *)
Theorem C68_release : forall e v, version_ok v -> sound_tools e ->
  exists gh npm, release e v = Some (gh, npm) /\ gh_tag gh = v /\ gh_name gh = "v" +++ v /\ pub_version npm = v /\
    (exists j cs, text_holds (pub_package npm) j /\ sole_member "version" j (JStr v) /\ sole_member "checksumConfig" j cs /\
       forall p a t, In (p, a, t) machines -> sole_member t cs (JStr (re_sha256 e (re_tarball e t)))) /\
    (forall p a t, In (p, a, t) machines -> In ("qlc-" +++ v +++ "-" +++ t +++ ".tar.gz", re_tarball e t) (gh_assets gh)).
Proof.
  intros e v V S. rewrite release_is by auto. do 2 eexists. split; [reflexivity|]. split; auto. split; auto. split; auto.
  destruct V as [_ V]. assert (L : forall p, all ascii_char (re_sha256 e (re_tarball e p))).
  { intros p. destruct S as [S _]. destruct (S (re_tarball e p)) as [_ X]. apply hex_ascii, X. }
  split.
  - destruct (package_members v (re_sha256 e (re_tarball e "aarch64-apple-darwin")) (re_sha256 e (re_tarball e "x86_64-apple-darwin"))
      (re_sha256 e (re_tarball e "aarch64-unknown-linux-musl")) (re_sha256 e (re_tarball e "x86_64-unknown-linux-musl"))) as (cs & M0 & Mc & M1 & M2 & M3 & M4).
    do 2 eexists. split; [apply package_holds; auto using version_ascii|]. split; [exact M0|]. split; [exact Mc|].
    intros p a t [I|[I|[I|[I|[]]]]]; inversion I; subst; auto.
  - intros p a t I. cbn [gh_assets github_of]. apply in_or_app. left.
    destruct I as [I|[I|[I|[I|[]]]]]; inversion I; subst; unfold files_of, platforms, release_archive; cbn [List.map In]; auto.
Qed.
Print Assumptions C68_release.

Lemma serves_one ie n url x y : serves ie n url x -> serves ie n url y -> x = y.
Proof. intros Sv. revert y. induction Sv; intros y Sy; inversion Sy; subst; try congruence. apply IHSv. congruence. Qed.
Lemma unpacks_served fuel ie code acts d t x y : install fuel ie = Some (code, acts, d) -> get_target (np_id ie) = Some t ->
  serves ie 0 (archive_url ie t) x -> In (AUnpack y) acts -> y = x.
Proof.
  intros H T Sv I. unfold install in H. rewrite T in H.
  destruct (download fuel ie 0 (archive_url ie t) None) as [[[ok da] d1]|] eqn:D; [|discriminate].
  destruct (download_ok _ _ _ _ _ _ _ _ D) as (U & Ht & Hf). destruct ok; [|exfalso; eapply Hf; eauto].
  destruct (Ht eq_refl) as (x' & -> & Sx). assert (x' = x) as -> by eauto using serves_one.
  assert (U' : forall z, ~ In (AUnpack z) ((if np_bin_exists ie then [] else [AMkdir]) ++ da)).
  { intros z J. apply in_app_or in J. destruct J as [J|J]; [|eapply U; eauto]. destruct (np_bin_exists ie); [destruct J|destruct J as [J|[]]; discriminate]. }
  set (acts0 := (if np_bin_exists ie then [] else [AMkdir]) ++ da) in *. clearbody acts0.
  assert (J : In (AUnpack y) ((acts0 ++ [AUnpack x]) ++ [ADelete; AChmod])).
  { destruct (negb true || negb (np_bin_exists ie || np_mkdir_ok ie)); [inversion H; subst; exfalso; eapply U'; eauto|].
    destruct (checksum ie t x); [|inversion H; subst; apply in_app_or in I; destruct I as [I|[I|[]]]; [exfalso; eapply U'; eauto|discriminate]].
    destruct (np_tar ie x) as [[|]|]; inversion H; subst; auto; apply in_or_app; auto. }
  apply in_app_or in J. destruct J as [J|[J|[J|[]]]]; try discriminate. apply in_app_or in J.
  destruct J as [J|[J|[]]]; [exfalso; eapply U'; eauto|congruence].
Qed.

(** ** The installer of the published package, on every supported machine, asks for a file of that release, accepts it
    and unpacks exactly the build made for that machine *)
Theorem C68_installs : forall e v gh npm ie p a t, version_ok v -> sound_tools e -> release e v = Some (gh, npm) ->
  reads_package (pub_package npm) ie -> (forall x, np_sha256 ie x = re_sha256 e x) -> github_serves gh ie ->
  In (p, a, t) machines -> np_id ie = p +++ "-" +++ a ->
  np_bin_exists ie || np_mkdir_ok ie = true -> np_unlink_ok ie = true -> np_chmod_ok ie = true -> np_tar ie (re_tarball e t) = Some 0 ->
  exists N, forall fuel, N <= fuel -> exists acts, install fuel ie = Some (0, acts, None) /\
    forall x, In (AUnpack x) acts <-> x = re_tarball e t.
Proof.
  intros e v gh npm ie p a t V S R (j & cs & J & Jv & Jc & Cs) Sha G M Id B Un Ch Tar.
  destruct (C68_release e v V S) as (gh' & npm' & R' & Tg & _ & _ & (j' & cs' & J' & Jv' & Jc' & Cs') & As).
  rewrite R in R'. inversion R'; subst gh' npm'. clear R'.
  assert (j' = j) as -> by eauto using C67_one_value. pose proof (sole_one _ _ _ _ Jc Jc'). subst cs'.
  pose proof (sole_one _ _ _ _ Jv Jv') as Ev. inversion Ev as [Ev']. clear Ev.
  assert (T : get_target (np_id ie) = Some t) by (rewrite Id; apply table_target, M).
  assert (Sv : serves ie 0 (archive_url ie t) (re_tarball e t)).
  { pose proof (G _ _ (As _ _ _ M)) as X. rewrite Tg in X. unfold archive_url, archive_name. rewrite Ev'. exact X. }
  assert (Vf : verified ie (re_tarball e t)).
  { exists (re_sha256 e (re_tarball e t)). split; [exists p, a, t; split; [exact M|]; split; [auto|]; apply Cs; eauto|].
    split; [apply S|apply Sha]. }
  destruct (C50_installs ie t (re_tarball e t) T Sv Vf B Un Ch Tar) as (N & H). exists N. intros fuel L.
  destruct (H fuel L) as (acts & E). exists acts. split; auto. intros x. split.
  - intros I. eapply unpacks_served; eauto.
  - intros ->. destruct (C50_success _ _ _ _ E) as (t' & x & T' & Sx & _ & I & _). rewrite T in T'. inversion T'; subst t'.
    rewrite (serves_one _ _ _ _ _ Sv Sx). auto.
Qed.
Print Assumptions C68_installs.

(** Anything else in place of that file is refused (unless its hash is the same) *)
Theorem C68_refuses : forall e v gh npm ie p a t y fuel code acts d, version_ok v -> sound_tools e -> release e v = Some (gh, npm) ->
  reads_package (pub_package npm) ie -> (forall x, np_sha256 ie x = re_sha256 e x) ->
  In (p, a, t) machines -> np_id ie = p +++ "-" +++ a ->
  install fuel ie = Some (code, acts, d) -> In (AUnpack y) acts -> re_sha256 e y = re_sha256 e (re_tarball e t).
Proof.
  intros e v gh npm ie p a t y fuel code acts d V S R (j & cs & J & Jv & Jc & Cs) Sha M Id H I.
  destruct (C68_release e v V S) as (gh' & npm' & R' & _ & _ & _ & (j' & cs' & J' & _ & Jc' & Cs') & _).
  rewrite R in R'. inversion R'; subst gh' npm'. assert (j' = j) as -> by eauto using C67_one_value.
  pose proof (sole_one _ _ _ _ Jc Jc'). subst cs'.
  destruct (C50_unpacks_verified _ _ _ _ _ _ H I) as (sum & (p' & a' & t' & M' & Id' & C) & _ & E).
  apply table_target in M, M'. rewrite <- Id in M. rewrite <- Id', M in M'. inversion M'; subst t'.
  apply Cs in C. destruct (target_table _ _ M) as (p1 & a1 & M1 & _). pose proof (sole_one _ _ _ _ C (Cs' _ _ _ M1)) as X.
  inversion X. subst. rewrite <- Sha. auto.
Qed.
Print Assumptions C68_refuses.

(** The builds made are those that some machine needs *)
Theorem C68_platforms : forall t, In t platforms <-> exists p a, In (p, a, t) machines.
Proof.
  intros t. split.
  - intros [<-|[<-|[<-|[<-|[]]]]]; do 2 eexists; cbn; eauto 7.
  - intros (p & a & [I|[I|[I|[I|[]]]]]); inversion I; cbn; auto.
Qed.
Print Assumptions C68_platforms.

(** ** Channels *)
Definition infix_of (part s : string) : Prop := exists a b, s = a +++ part +++ b.
Lemma has_part_spec part s : has_part part s = true <-> infix_of part s.
Proof.
  split.
  - induction s as [|c s IH]; intros H; cbn [has_part] in H; rewrite orb_true_iff in H; destruct H as [H|H].
    + exists "". apply starts_with_spec in H. destruct H as (b & E). exists b. exact E.
    + discriminate.
    + exists "". apply starts_with_spec in H. destruct H as (b & E). exists b. auto.
    + destruct (IH H) as (a & b & ->). exists (String c a), b. auto.
  - intros (a & b & ->). induction a as [|c a IH].
    + cbn [String.append]. destruct (part +++ b) eqn:E; cbn [has_part]; rewrite orb_true_iff; left; apply starts_with_spec; eauto.
    + cbn [String.append has_part]. rewrite IH, orb_true_r. auto.
Qed.
(** Alpha and beta versions are pre-releases on both sides, everything else a full release on both sides *)
Theorem C68_channels : forall e v gh npm, version_ok v -> sound_tools e -> release e v = Some (gh, npm) ->
  (gh_prerelease gh = true <-> infix_of "-alpha" v \/ infix_of "-beta" v) /\
  (pub_tag npm <> "latest" <-> gh_prerelease gh = true) /\
  (infix_of "-alpha" v -> pub_tag npm = "alpha") /\
  (infix_of "-beta" v -> ~ infix_of "-alpha" v -> pub_tag npm = "beta").
Proof.
  intros e v gh npm V S R. rewrite release_is in R by auto. inversion R; subst. cbn [gh_prerelease github_of pub_tag npm_of].
  rewrite <- !has_part_spec. destruct (has_part "-alpha" v), (has_part "-beta" v); cbn; intuition (try discriminate; try congruence).
Qed.
Print Assumptions C68_channels.
(** A version without a pre-release part becomes the latest *)
Theorem C68_final : forall e v gh npm, version_ok v -> sound_tools e -> release e v = Some (gh, npm) -> lacks "-" v ->
  gh_prerelease gh = false /\ pub_tag npm = "latest".
Proof.
  intros e v gh npm V S R L. rewrite release_is in R by auto. inversion R; subst. cbn [gh_prerelease github_of pub_tag npm_of].
  rewrite !lacks_part by auto. auto.
Qed.
Print Assumptions C68_final.

(** ** Refuted: that every pre-release version is published as one *)
Definition prerelease_version (v : string) : Prop := exists core pre, v = core +++ "-" +++ pre /\ lacks "-" core /\ pre <> "".
Definition release_example : release_env :=
  {| re_tarball := fun p => "build for " +++ p; re_sha256 := fun x => if has_part "musl" x then "1b" else "0a";
     re_order := fun l => rev l; re_seen := Some ""; re_final := "" |}.
Lemma release_example_sound : sound_tools release_example.
Proof.
  split; [|intros l; apply Permutation_sym, Permutation_rev]. intros x. cbn. destruct (has_part "musl" x); (split; [discriminate|]); cbn; unfold hex_char; cbn; lia.
Qed.
Ltac version_all := cbn; unfold version_char; repeat split; first [discriminate|cbn; auto; lia|idtac].
Ltac version_chars := split; [discriminate|version_all].
Theorem C68_prerelease_refuted : exists e v gh npm, version_ok v /\ sound_tools e /\ release e v = Some (gh, npm) /\
  prerelease_version v /\ gh_prerelease gh = false /\ pub_tag npm = "latest".
Proof.
  assert (V : version_ok "4.3.0-rc.1").
  { version_chars. }
  exists release_example, "4.3.0-rc.1". do 2 eexists. split; [exact V|]. split; [apply release_example_sound|].
  split; [apply release_is; [exact V|apply release_example_sound]|]. split.
  - exists "4.3.0", "rc.1". split; auto. split; [cbn; intuition discriminate|discriminate].
  - split; reflexivity.
Qed.
Print Assumptions C68_prerelease_refuted.

(** Non-vacuity: a release, and the installer of its package on one machine *)
Definition asset_url (v name : string) : string := "https://github.com/notarize/qlc/releases/download/" +++ v +++ "/" +++ name.
Definition install_example (v : string) : npm_env :=
  let gh := github_of v (files_of release_example v ++ [("checksums.txt", "")]) in
  {| np_id := "linux-x64"; np_version := v;
     np_checksums := fun t => if String.eqb t "x86_64-unknown-linux-musl" || String.eqb t "aarch64-unknown-linux-musl" then Some "1b"
       else if String.eqb t "x86_64-apple-darwin" || String.eqb t "aarch64-apple-darwin" then Some "0a" else None;
     np_sha256 := re_sha256 release_example;
     np_get := fun _ url => match List.find (fun f => String.eqb url (asset_url v (fst f))) (gh_assets gh) with Some f => RBody (snd f) | None => RStatus 404 end;
     np_bin_exists := false; np_mkdir_ok := true; np_unlink_ok := true; np_chmod_ok := true; np_tar := fun _ => Some 0 |}.
Example C68_nonvacuous : exists gh npm, version_ok "4.3.0" /\ sound_tools release_example /\ release release_example "4.3.0" = Some (gh, npm) /\
  reads_package (pub_package npm) (install_example "4.3.0") /\ github_serves gh (install_example "4.3.0") /\
  exists acts, install 3 (install_example "4.3.0") = Some (0, acts, None) /\ In (AUnpack "build for x86_64-unknown-linux-musl") acts.
Proof.
  assert (V : version_ok "4.3.0") by version_chars.
  do 2 eexists. split; [exact V|]. split; [apply release_example_sound|]. split; [apply release_is; [exact V|apply release_example_sound]|]. split; [|split].
  - destruct (package_members "4.3.0" "0a" "0a" "1b" "1b") as (cs & M0 & Mc & M1 & M2 & M3 & M4).
    exists (package_value "4.3.0" "0a" "0a" "1b" "1b"), cs. split; [apply package_holds; apply version_ascii; version_all|].
    split; [exact M0|]. split; [exact Mc|]. intros t s. split.
    + cbn [np_checksums install_example].
      destruct (String.eqb_spec t "x86_64-unknown-linux-musl"); [subst; cbn; intros E; inversion E; auto|].
      destruct (String.eqb_spec t "aarch64-unknown-linux-musl"); [subst; cbn; intros E; inversion E; auto|].
      destruct (String.eqb_spec t "x86_64-apple-darwin"); [subst; cbn; intros E; inversion E; auto|].
      destruct (String.eqb_spec t "aarch64-apple-darwin"); [subst; cbn; intros E; inversion E; auto|]. discriminate.
    + intros M. assert (cs = JObj [("aarch64-apple-darwin", JStr "0a"); ("x86_64-apple-darwin", JStr "0a"); ("aarch64-unknown-linux-musl", JStr "1b"); ("x86_64-unknown-linux-musl", JStr "1b")]) as ->.
      { apply (sole_one _ _ _ _ Mc). apply sole_at. exists 9. split; [reflexivity|cbn; intuition discriminate]. }
      destruct M as (pre & post & E & _). inversion E as [E'].
      assert (I : In (t, JStr s) (pre ++ (t, JStr s) :: post)) by (apply in_or_app; right; left; auto).
      rewrite <- E' in I. destruct I as [I|[I|[I|[I|[]]]]]; inversion I; reflexivity.
  - intros name x I. cbn in I. destruct I as [I|[I|[I|[I|[I|[]]]]]]; inversion I; subst; apply serves_body; vm_compute; reflexivity.
  - eexists. split; [vm_compute; reflexivity|]. cbn. tauto.
Qed.
