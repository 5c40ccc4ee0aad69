(** C85: every way into the installed package leads to the build for the machine. *)
From Verif Require Import Entry ReleaseFacts SpecJtext PropC50 PropC67 PropC68 Package PathFacts BaseFacts TextFacts.
Require Import Lia.

(** A directory, given by the names on the way from the root of the file system *)
Definition plain_name (n : string) : Prop := n <> "" /\ n <> "." /\ n <> ".." /\ lacks "/" n.
Fixpoint place (names : list string) : string :=
  match names with [] => "" | n :: ns => "/" +++ n +++ place ns end.
Definition directory (root : string) : Prop := exists names, root = place names /\ names <> [] /\ Forall plain_name names.

(** ** Proof *)
Lemma lacks_app c a b : lacks c (a +++ b) <-> lacks c a /\ lacks c b.
Proof. unfold lacks. induction a as [|x a IH]; cbn; [tauto|]. rewrite IH. tauto. Qed.
Lemma pieces_plain n : lacks "/" n -> pieces n = [n].
Proof.
  unfold pieces. enough (X : forall acc, lacks "/" n -> split_on sep acc n = [acc +++ n]) by apply (X "").
  induction n as [|a n IH]; intros acc L; cbn [split_on]; [rewrite sapp_nil_r; auto|]. destruct L as [N L].
  destruct (Ascii.eqb a sep) eqn:E; [apply Ascii.eqb_eq in E; destruct (N E)|]. rewrite IH by auto. rewrite sapp_assoc. reflexivity.
Qed.
Lemma place_app a b : place (a ++ b) = place a +++ place b.
Proof. induction a as [|n a IH]; cbn [place app]; auto. rewrite IH, !sapp_assoc. reflexivity. Qed.
Lemma pieces_place names b : Forall plain_name names -> pieces (place names +++ String sep b) = "" :: names ++ pieces b.
Proof.
  intros F. induction F as [|n ns P F IH]; cbn [place].
  - cbn [String.append app]. apply (pieces_sep "" b).
  - change ("/" +++ n +++ place ns) with (String sep (n +++ place ns)). change (String sep (n +++ place ns) +++ String sep b) with ("" +++ String sep ((n +++ place ns) +++ String sep b)).
    rewrite (pieces_sep ""). change (pieces "") with [""]. cbn [app]. f_equal. rewrite sapp_assoc. destruct ns as [|n' ns].
    + change (n +++ place [] +++ String sep b) with (n +++ String sep b). rewrite pieces_sep, pieces_plain by apply P. reflexivity.
    + cbn [place]. change ("/" +++ n' +++ place ns) with (String sep (n' +++ place ns)). cbn [place] in IH.
      change (n +++ String sep (n' +++ place ns) +++ String sep b) with (n +++ String sep ((n' +++ place ns) +++ String sep b)).
      rewrite pieces_sep, pieces_plain by apply P. cbn [app]. f_equal.
      change ("/" +++ n' +++ place ns) with (String sep (n' +++ place ns)) in IH.
      change (String sep (n' +++ place ns) +++ String sep b) with ("" +++ String sep ((n' +++ place ns) +++ String sep b)) in IH.
      rewrite (pieces_sep "") in IH. change (pieces "") with [""] in IH. cbn [app] in IH. inversion IH. auto.
Qed.
Lemma plain_real n : plain_name n -> real_piece n = true /\ String.eqb n ".." = false.
Proof.
  intros (A & B & C & _). unfold real_piece.
  assert (E1 : String.eqb n "" = false) by (apply String.eqb_neq; auto).
  assert (E2 : String.eqb n "." = false) by (apply String.eqb_neq; auto). rewrite E1, E2. split; auto. apply String.eqb_neq; auto.
Qed.
Lemma norm_plain above ns : Forall plain_name ns -> forall done, fold_left (norm_piece above) ns done = rev ns ++ done.
Proof.
  induction 1 as [|n ns P F IH]; intros done; cbn [fold_left rev app]; auto. rewrite IH. unfold norm_piece. apply plain_real in P.
  destruct P as [-> ->]. cbn [negb]. rewrite <- app_assoc. reflexivity.
Qed.
Lemma join_place n ns : "/" +++ join "/" (n :: ns) = place (n :: ns).
Proof.
  revert n. induction ns as [|m ns IH]; intros n; cbn [place]; [rewrite sapp_nil_r; reflexivity|].
  change (join "/" (n :: m :: ns)) with (n +++ "/" +++ join "/" (m :: ns)). rewrite IH. reflexivity.
Qed.
(** Joining a relative path whose pieces lead to [end_] *)
Lemma normal_join names b end_ : Forall plain_name names -> b <> "" -> ends_with_sep (place names +++ String sep b) = false -> end_ <> [] ->
  rev (fold_left (norm_piece false) (pieces b) (rev names)) = end_ -> normalize (place names +++ "/" +++ b) = place end_.
Proof.
  intros F Nb Es Ne E. change ("/" +++ b) with (String sep b).
  assert (A : is_absolute (place names +++ String sep b) = true) by (destruct names; reflexivity).
  unfold normalize. destruct (place names +++ String sep b) as [|a s] eqn:S; [destruct (place names); discriminate|]. rewrite <- S in *. clear a s S.
  rewrite A, Es. cbn [negb andb]. rewrite andb_false_r. unfold norm_pieces. rewrite pieces_place by auto. cbn [fold_left].
  change (norm_piece false [] "") with (@nil string). rewrite fold_left_app, (norm_plain _ names) by auto. rewrite app_nil_r, E.
  destruct end_ as [|n ns]; [congruence|]. apply join_place.
Qed.
Lemma ends_app s a r : ends_with_sep (s +++ String a r) = ends_with_sep (String a r).
Proof.
  induction s as [|x s IH]; auto. change (String x s +++ String a r) with (String x (s +++ String a r)). cbn [ends_with_sep]. rewrite IH.
  destruct s; reflexivity.
Qed.
Lemma join_at names a b end_ : Forall plain_name names -> place names = a -> a <> "" -> b <> "" ->
  ends_with_sep (String sep b) = false -> end_ <> [] ->
  rev (fold_left (norm_piece false) (pieces b) (rev names)) = end_ -> node_join a b = place end_.
Proof.
  intros F <- Na Nb Es Ne E. unfold node_join. destruct (place names) as [|x s] eqn:Ep; [congruence|]. cbn [is_empty].
  destruct b as [|y b]; [congruence|]. cbn [is_empty]. rewrite <- Ep. apply normal_join; auto. rewrite ends_app. auto.
Qed.
Lemma lib_place names : lib_dir (place names) = place (names ++ ["lib"]).
Proof. rewrite place_app. reflexivity. Qed.
Lemma plain_lit n : (negb (String.eqb n "") && negb (String.eqb n ".") && negb (String.eqb n "..") && negb (existsb (Ascii.eqb "/") (list_ascii_of_string n))) = true -> plain_name n.
Proof.
  rewrite !andb_true_iff, !negb_true_iff, !String.eqb_neq. intros [[[A B] C] D]. split; auto. split; auto. split; auto.
  clear A B C. unfold lacks. induction n as [|c n IH]; cbn in *; auto. apply orb_false_iff in D. destruct D as [D1 D2]. split; auto.
  intros ->. vm_compute in D1. discriminate.
Qed.
Lemma plain_snoc names n : Forall plain_name names -> plain_name n -> Forall plain_name (names ++ [n]).
Proof. intros. apply Forall_app. auto. Qed.
Lemma main_at root : directory root -> main_export root = root +++ "/bin/qlc".
Proof.
  intros (names & -> & Nn & F). unfold main_export. rewrite lib_place.
  assert (F' : Forall plain_name (names ++ ["lib"])) by (apply plain_snoc; auto; apply plain_lit; reflexivity).
  rewrite (join_at (names ++ ["lib"]) _ _ (names ++ ["bin"; "qlc"])); auto; try discriminate.
  - rewrite place_app. reflexivity.
  - rewrite place_app. destruct (place names); discriminate.
  - destruct names; discriminate.
  - rewrite rev_app_distr. change (pieces "../bin/qlc") with [".."; "bin"; "qlc"]. cbn [rev app fold_left].
    change (norm_piece false ("lib" :: rev names) "..") with (rev names).
    change (norm_piece false (norm_piece false (rev names) "bin") "qlc") with ("qlc" :: "bin" :: rev names).
    cbn [rev]. rewrite rev_involutive, <- app_assoc. reflexivity.
Qed.
Lemma bin_names names : Forall plain_name names -> bin_path (place names) = place (names ++ ["bin"]).
Proof.
  intros F. unfold bin_path. rewrite lib_place.
  assert (F' : Forall plain_name (names ++ ["lib"])) by (apply plain_snoc; auto; apply plain_lit; reflexivity).
  rewrite (join_at (names ++ ["lib"]) _ _ (names ++ ["bin"])); auto; try discriminate.
  - rewrite place_app. destruct (place names); discriminate.
  - destruct names; discriminate.
  - rewrite rev_app_distr. change (pieces "../bin") with [".."; "bin"]. cbn [rev app fold_left].
    change (norm_piece false ("lib" :: rev names) "..") with (rev names).
    change (norm_piece false (rev names) "bin") with ("bin" :: rev names).
    cbn [rev]. rewrite rev_involutive. reflexivity.
Qed.
Lemma ends_plain n : n <> "" -> lacks "/" n -> ends_with_sep n = false.
Proof.
  induction n as [|a n IH]; [congruence|]. intros _ [Na L]. cbn [ends_with_sep]. destruct n; [|apply IH; auto; discriminate].
  apply Ascii.eqb_neq. auto.
Qed.
(** Relative paths of plain names, joined to a directory *)
Lemma join_names names b bs : Forall plain_name names -> names <> [] -> Forall plain_name bs -> bs <> [] -> pieces b = bs ->
  b <> "" -> ends_with_sep (String sep b) = false -> node_join (place names) b = place names +++ place bs.
Proof.
  intros F Nn Fb Nb E Ne Es. rewrite (join_at names _ b (names ++ bs)); auto.
  - apply place_app.
  - destruct names; [congruence|discriminate].
  - destruct names; [congruence|discriminate].
  - rewrite E, norm_plain by auto. rewrite rev_app_distr, !rev_involutive. reflexivity.
Qed.
Lemma qlc_at root : directory root -> node_join (bin_path root) "qlc" = root +++ "/bin/qlc".
Proof.
  intros (names & -> & Nn & F). rewrite bin_names by auto. rewrite (join_names _ "qlc" ["qlc"]); auto.
  - rewrite place_app, sapp_assoc. reflexivity.
  - apply plain_snoc; auto. apply plain_lit; reflexivity.
  - destruct names; discriminate.
  - repeat constructor; try discriminate; intuition discriminate.
  - discriminate.
  - discriminate.
Qed.

Lemma release_value e v gh npm j : version_ok v -> sound_tools e -> release e v = Some (gh, npm) -> text_holds (pub_package npm) j ->
  exists c1 c2 c3 c4, j = package_value v c1 c2 c3 c4.
Proof.
  intros V S R T. rewrite release_is in R by auto. inversion R; subst. clear R. cbn [pub_package npm_of] in T. unfold release_text in T. cbv zeta in T.
  destruct V as [_ V]. assert (L : forall p, all ascii_char (re_sha256 e (re_tarball e p))).
  { intros p. destruct S as [S _]. destruct (S (re_tarball e p)) as [_ X]. apply hex_ascii, X. }
  do 4 eexists. eapply C67_one_value; [exact T|]. apply package_holds; auto using version_ascii.
Qed.
Lemma file_at root f ns : directory root -> pieces f = ns -> Forall plain_name ns -> ns <> [] -> f <> "" -> ends_with_sep (String sep f) = false ->
  node_join root f = root +++ place ns.
Proof. intros (names & -> & Nn & F) E Fn N1 N2 Es. apply join_names; auto. Qed.
Ltac lits := repeat (apply Forall_cons; [apply plain_lit; reflexivity|]); apply Forall_nil.
Lemma dot_file root f ns : directory root -> pieces ("./" +++ f) = "." :: ns -> Forall plain_name ns -> ns <> [] -> ends_with_sep (String sep ("./" +++ f)) = false ->
  node_join root ("./" +++ f) = root +++ place ns.
Proof.
  intros (names & -> & Nn & F) E Fn N1 Es. rewrite (join_at names _ ("./" +++ f) (names ++ ns)); auto; try discriminate.
  - apply place_app.
  - destruct names; [congruence|discriminate].
  - destruct names; [congruence|discriminate].
  - rewrite E. cbn [fold_left]. change (norm_piece false (rev names) ".") with (rev names). rewrite norm_plain by auto.
    rewrite rev_app_distr, !rev_involutive. reflexivity.
Qed.

Lemma strip_is p s r : strip_prefix p s = Some r <-> s = p +++ r.
Proof.
  revert s. induction p as [|a p IH]; intros s; cbn.
  - split; [intros H; injection H; auto|intros ->; auto].
  - destruct s as [|b s]; [split; discriminate|]. destruct (Ascii.eqb a b) eqn:E.
    + apply Ascii.eqb_eq in E. subst. rewrite IH. split; [intros ->; auto|intros H; injection H; auto].
    + split; [discriminate|]. intros H. injection H as -> _. rewrite Ascii.eqb_refl in E. discriminate.
Qed.

(** ** What can be imported: exactly two specifiers; and which commands there are.  All of it is in the package, and so
    are the declarations beside the modules and the installer *)
Theorem C85_entries : forall e v gh npm j root, version_ok v -> sound_tools e -> release e v = Some (gh, npm) ->
  text_holds (pub_package npm) j -> directory root ->
  (forall spec p, node_resolve root j spec = Some p <->
     spec = "@notarize/qlc-cli" /\ p = root +++ "/lib/index.js" \/
     spec = "@notarize/qlc-cli/typed-documentnode" /\ p = root +++ "/lib/typed-documentnode.js") /\
  (forall command p, bin_link root j command = Some p <->
     command = "qlc" /\ p = root +++ "/bin/qlc" \/
     command = "qlc-download-schema" /\ p = root +++ "/bin/qlc-download-schema") /\
  (forall f, In f ["lib/index.js"; "lib/index.d.ts"; "lib/typed-documentnode.js"; "lib/typed-documentnode.d.ts"; "bin/qlc";
                   "bin/qlc-download-schema"; "lib/download.js"; "lib/postinstall.js"; "package.json"] -> published j f = true) /\
  member "types" j = Some (JStr "./lib/index.d.ts") /\
  (exists scripts, member "scripts" j = Some scripts /\ member "postinstall" scripts = Some (JStr "node ./lib/postinstall.js")).
Proof.
  intros e v gh npm j root V S R T D. destruct (release_value e v gh npm j V S R T) as (c1 & c2 & c3 & c4 & ->). clear R T S.
  assert (J1 : node_join root "./lib/index.js" = root +++ "/lib/index.js") by (apply (dot_file root "lib/index.js" ["lib"; "index.js"]); auto; try discriminate; lits).
  assert (J2 : node_join root "./lib/typed-documentnode.js" = root +++ "/lib/typed-documentnode.js") by (apply (dot_file root "lib/typed-documentnode.js" ["lib"; "typed-documentnode.js"]); auto; try discriminate; lits).
  assert (J3 : node_join root "bin/qlc" = root +++ "/bin/qlc") by (apply (file_at root "bin/qlc" ["bin"; "qlc"]); auto; try discriminate; lits).
  assert (J4 : node_join root "bin/qlc-download-schema" = root +++ "/bin/qlc-download-schema") by (apply (file_at root "bin/qlc-download-schema" ["bin"; "qlc-download-schema"]); auto; try discriminate; lits).
  split; [|split; [|split; [|split]]].
  - intros spec p. unfold node_resolve.
    change (member "name" (package_value v c1 c2 c3 c4)) with (Some (JStr "@notarize/qlc-cli")).
    change (member "exports" (package_value v c1 c2 c3 c4)) with (Some (JObj [(".", JStr "./lib/index.js"); ("./typed-documentnode", JStr "./lib/typed-documentnode.js")])).
    cbv iota beta.
    assert (M : forall key x, match member key (JObj [(".", JStr "./lib/index.js"); ("./typed-documentnode", JStr "./lib/typed-documentnode.js")]) with
                              | Some (JStr target) => if starts_with "./" target then Some (node_join root target) else None | _ => None end = Some x <->
              key = "." /\ x = root +++ "/lib/index.js" \/ key = "./typed-documentnode" /\ x = root +++ "/lib/typed-documentnode.js").
    { intros key x. unfold member, last_member. destruct (String.eqb key "./typed-documentnode") eqn:E1.
      - apply String.eqb_eq in E1. subst key. change (starts_with "./" "./lib/typed-documentnode.js") with true. rewrite J2.
        split; [intros H; injection H as <-; auto|]. intros [[H _]|[_ ->]]; [discriminate|reflexivity].
      - apply String.eqb_neq in E1. destruct (String.eqb key ".") eqn:E2.
        + apply String.eqb_eq in E2. subst key. change (starts_with "./" "./lib/index.js") with true. rewrite J1.
          split; [intros H; injection H as <-; auto|]. intros [[_ ->]|[H _]]; [reflexivity|discriminate].
        + apply String.eqb_neq in E2. split; [discriminate|]. intros [[H _]|[H _]]; congruence. }
    unfold subpath. destruct (strip_prefix "@notarize/qlc-cli" spec) as [rest|] eqn:Sp.
    + apply strip_is in Sp. subst spec. destruct rest as [|a rest].
      * rewrite M. split; (intros [[H ->]|[H ->]]; [left|]; [auto|discriminate]).
      * split.
        -- destruct (starts_with "/" (String a rest)) eqn:St; [|discriminate]. rewrite M.
           intros [[H ->]|[H ->]]; [discriminate|]. injection H as -> ->. right. auto.
        -- intros [[H _]|[H ->]]; [discriminate|]. injection H as -> ->. change (starts_with "/" "/typed-documentnode") with true. cbv iota. apply M. right. auto.
    + split; [discriminate|]. intros [[-> _]|[-> _]]; discriminate.
  - intros command p. unfold bin_link.
    change (member "bin" (package_value v c1 c2 c3 c4)) with (Some (JObj [("qlc", JStr "bin/qlc"); ("qlc-download-schema", JStr "bin/qlc-download-schema")])).
    cbv iota beta. unfold member, last_member.
    destruct (String.eqb command "qlc-download-schema") eqn:E1; [apply String.eqb_eq in E1; subst|].
    + rewrite J4. split; [intros H; injection H as <-; auto|]. intros [[H _]|[_ ->]]; [discriminate|reflexivity].
    + destruct (String.eqb command "qlc") eqn:E2; [apply String.eqb_eq in E2; subst|].
      * rewrite J3. split; [intros H; injection H as <-; auto|]. intros [[_ ->]|[H _]]; [reflexivity|discriminate].
      * split; [discriminate|]. intros [[-> _]|[-> _]]; discriminate.
  - intros f I. repeat (destruct I as [<-|I]; [reflexivity|]). destruct I.
  - reflexivity.
  - eexists. split; reflexivity.
Qed.
Print Assumptions C85_entries.
(** The import paths of the package are those that the compiler writes by default and that C56 assumes *)
Theorem C85_paths : forall e v gh npm j root, version_ok v -> sound_tools e -> release e v = Some (gh, npm) ->
  text_holds (pub_package npm) j -> directory root ->
  forall spec, In spec package_paths <-> exists p, node_resolve root j spec = Some p.
Proof.
  intros e v gh npm j root V S R T D spec. destruct (C85_entries e v gh npm j root V S R T D) as (X & _). split.
  - intros [<-|[<-|[]]]; eexists; apply X; [left|right]; split; reflexivity.
  - intros (p & H). apply X in H. destruct H as [[-> _]|[-> _]]; cbn; auto.
Qed.
Print Assumptions C85_paths.

(** ** After an installation *)
Lemma archive_plain v t : version_ok v -> In t platforms -> plain_name ("qlc-" +++ v +++ "-" +++ t +++ ".tar.gz").
Proof.
  intros [_ V] I. split; [discriminate|]. split; [discriminate|]. split; [discriminate|].
  apply lacks_app. split; [vm_compute; intuition discriminate|]. apply lacks_app. split.
  - revert V. apply all_mono. intros c C ->. destruct C as [C|[C|[C|[C|C]]]]; try discriminate; vm_compute in C; lia.
  - apply lacks_app. split; [vm_compute; intuition discriminate|]. apply lacks_app. split; [|vm_compute; intuition discriminate].
    repeat (destruct I as [<-|I]; [vm_compute; intuition discriminate|]). destruct I.
Qed.
Definition quiet (a : action) : Prop := match a with AUnpack _ | AChmod => False | _ => True end.
Lemma quiet_files root archive members acts fs q : Forall quiet acts -> q <> node_join root archive ->
  performed root archive members acts fs q = fs q.
Proof.
  intros F N. revert fs. induction F as [|a acts Qa F IH]; intros fs; [reflexivity|]. unfold performed in *. cbn [fold_left]. rewrite IH.
  apply String.eqb_neq in N. destruct a; cbn in *; try tauto; unfold put; rewrite N; reflexivity.
Qed.
Lemma download_quiet fuel e : forall n url d b acts d', download fuel e n url d = Some (b, acts, d') -> Forall quiet acts.
Proof.
  induction fuel as [|k IH]; intros n url d b acts d'; cbn; [discriminate|]. destruct (np_get e n url) as [x|l|c|].
  - intros H; inversion H; subst. repeat constructor.
  - destruct (download k e (S n) l d) as [[[b1 a1] d1]|] eqn:D; [|discriminate]. intros H; inversion H; subst. constructor; [exact I|eauto].
  - intros H; inversion H; subst. repeat constructor.
  - intros H; inversion H; subst. repeat constructor.
Qed.
Lemma install_acts fuel e code acts d : install fuel e = Some (code, acts, d) ->
  Forall quiet acts /\ code = 1 \/
  exists t x pre, get_target (np_id e) = Some t /\ serves e 0 (archive_url e t) x /\ verified e x /\ Forall quiet pre /\
    (acts = pre ++ [AUnpack x] /\ code = 1 \/ acts = pre ++ [AUnpack x; ADelete; AChmod]).
Proof.
  unfold install. destruct (get_target (np_id e)) as [t|] eqn:T; [|intros H; inversion H; subst; auto].
  destruct (download fuel e 0 (archive_url e t) None) as [[[ok da] d1]|] eqn:D; [|discriminate].
  destruct (download_ok _ _ _ _ _ _ _ _ D) as (_ & Ht & _). pose proof (download_quiet _ _ _ _ _ _ _ _ D) as Qd.
  assert (Q0 : Forall quiet ((if np_bin_exists e then [] else [AMkdir]) ++ da)).
  { apply Forall_app. split; auto. destruct (np_bin_exists e); repeat constructor. }
  set (acts0 := (if np_bin_exists e then [] else [AMkdir]) ++ da) in *. clearbody acts0.
  destruct ok; [|intros H; inversion H; subst; auto]. destruct (Ht eq_refl) as (x & -> & Sx). cbn [negb orb].
  destruct (negb (np_bin_exists e || np_mkdir_ok e)); [intros H; inversion H; subst; auto|].
  destruct (checksum e t x) eqn:C.
  - intros H. right. exists t, x, acts0. split; auto. split; auto. split; [apply (checksum_ok e t x T); auto|]. split; auto.
    destruct (np_tar e x) as [[|]|]; inversion H; subst; auto. right. rewrite <- app_assoc. reflexivity.
  - intros H; inversion H; subst. left. split; auto. apply Forall_app. split; auto. repeat constructor.
Qed.

(** On every supported machine the installation succeeds; afterwards the path that the package exports and the command
    qlc are one file, the build of this release for this machine, executable; nothing else has changed and the archive is gone *)
Theorem C85_installed : forall e v gh npm j ie p a t root members build mode fs, version_ok v -> sound_tools e -> release e v = Some (gh, npm) ->
  text_holds (pub_package npm) j -> reads_package (pub_package npm) ie -> (forall x, np_sha256 ie x = re_sha256 e x) -> github_serves gh ie ->
  In (p, a, t) machines -> np_id ie = p +++ "-" +++ a ->
  np_bin_exists ie || np_mkdir_ok ie = true -> np_unlink_ok ie = true -> np_chmod_ok ie = true -> np_tar ie (re_tarball e t) = Some 0 ->
  members (re_tarball e t) = [("qlc", (build, mode))] -> directory root ->
  exists N, forall fuel, N <= fuel -> exists acts, install fuel ie = Some (0, acts, None) /\
    let fs' := performed root (archive_name ie t) members acts fs in
    fs' (main_export root) = Some (build, true) /\ bin_link root j "qlc" = Some (main_export root) /\
    fs' (root +++ "/qlc-" +++ v +++ "-" +++ t +++ ".tar.gz") = None /\
    (forall q, q <> main_export root -> q <> root +++ "/qlc-" +++ v +++ "-" +++ t +++ ".tar.gz" -> fs' q = fs q).
Proof.
  intros e v gh npm j ie p a t root members build mode fs V S R T Rp Sha G M Id B Un Ch Tar Mb D.
  destruct (C68_installs e v gh npm ie p a t V S R Rp Sha G M Id B Un Ch Tar) as (N & H). exists N. intros fuel L.
  destruct (H fuel L) as (acts & E & U). exists acts. split; auto.
  assert (Ev : np_version ie = v).
  { destruct Rp as (j' & cs & J & Jv & _). destruct (release_value e v gh npm j' V S R J) as (c1 & c2 & c3 & c4 & ->).
    destruct (package_members v c1 c2 c3 c4) as (cs' & Jv' & _). pose proof (sole_one _ _ _ _ Jv Jv') as X. injection X. auto. }
  destruct (C85_entries e v gh npm j root V S R T D) as (_ & Bl & _).
  assert (It : In t platforms) by (apply C68_platforms; eauto).
  assert (Ar : node_join root (archive_name ie t) = root +++ "/qlc-" +++ v +++ "-" +++ t +++ ".tar.gz").
  { unfold archive_name. rewrite Ev. pose proof (archive_plain v t V It) as P.
    destruct D as (names & -> & Nn & F). rewrite (join_names _ _ ["qlc-" +++ v +++ "-" +++ t +++ ".tar.gz"]); auto.
    - cbn [place]. rewrite sapp_nil_r. reflexivity.
    - discriminate.
    - apply pieces_plain, P.
    - discriminate.
    - change (String sep ("qlc-" +++ v +++ "-" +++ t +++ ".tar.gz")) with ("/" +++ String "q" ("lc-" +++ v +++ "-" +++ t +++ ".tar.gz")).
      rewrite ends_app. apply (ends_plain ("qlc-" +++ v +++ "-" +++ t +++ ".tar.gz")); [discriminate|]. apply P. }
  destruct (install_acts _ _ _ _ _ E) as [[_ X]|(t' & x & pre & T' & Sx & Vx & Qp & [[_ X]|Ea])]; try discriminate X.
  assert (x = re_tarball e t) as ->. { apply U. rewrite Ea. apply in_or_app. right. left. auto. }
  rewrite main_at by auto. cbv zeta. subst acts. unfold performed. rewrite fold_left_app. cbn [fold_left].
  set (fs1 := fold_left _ pre fs). assert (F1 : forall q, q <> node_join root (archive_name ie t) -> fs1 q = fs q) by (intros q Nq; apply quiet_files; auto).
  clearbody fs1. cbn [perform]. rewrite Mb. cbn [unpack]. rewrite qlc_at by auto. rewrite Ar in *. unfold put.
  assert (Nd : root +++ "/bin/qlc" <> root +++ "/qlc-" +++ v +++ "-" +++ t +++ ".tar.gz").
  { intros X. clear - X. induction root as [|y root IH]; cbn in X; [discriminate|]. injection X as X. auto. }
  split; [|split; [apply Bl; left; auto|split]].
  - rewrite String.eqb_refl. apply String.eqb_neq in Nd. rewrite Nd. reflexivity.
  - rewrite String.eqb_refl. assert (X : String.eqb (root +++ "/qlc-" +++ v +++ "-" +++ t +++ ".tar.gz") (root +++ "/bin/qlc") = false) by (apply String.eqb_neq; congruence).
    rewrite X, String.eqb_refl. reflexivity.
  - intros q N1 N2. apply String.eqb_neq in N1. rewrite N1. pose proof (proj2 (String.eqb_neq _ _) N2) as E2. rewrite E2. auto.
Qed.
Print Assumptions C85_installed.

(** If what is served does not verify, the installation fails and no file but the archive is touched: the command qlc
    is still the empty file of the package *)
Theorem C85_refused : forall fuel ie code acts d t root members fs, install fuel ie = Some (code, acts, d) ->
  get_target (np_id ie) = Some t -> (forall x, serves ie 0 (archive_url ie t) x -> ~ verified ie x) ->
  code = 1 /\ forall q, q <> node_join root (archive_name ie t) -> performed root (archive_name ie t) members acts fs q = fs q.
Proof.
  intros fuel ie code acts d t root members fs H T N. destruct (install_acts _ _ _ _ _ H) as [[Q ->]|(t' & x & pre & T' & Sx & Vx & _)].
  - split; auto. intros q Nq. apply quiet_files; auto.
  - rewrite T in T'. injection T' as <-. destruct (N x Sx Vx).
Qed.
Print Assumptions C85_refused.

(** ** What an import gives, and what is declared *)
Theorem C85_import : forall i root, directory root -> i <> PlainCommonJs ->
  default_import i (JsString (main_export root)) = Some (JsString (root +++ "/bin/qlc")) /\
  declared_default (JsString (root +++ "/bin/qlc")) = true.
Proof. intros i root D N. rewrite main_at by auto. destruct i; [split; reflexivity|split; reflexivity|congruence]. Qed.
Print Assumptions C85_import.
(** Refuted for modules compiled to CommonJS without esModuleInterop: the import is undefined, though declared to be a string *)
Theorem C85_import_refuted : forall root, exists v,
  default_import PlainCommonJs (JsString (main_export root)) = Some v /\ declared_default v = false.
Proof. intros root. exists JsUndefined. split; reflexivity. Qed.
Print Assumptions C85_import_refuted.

(** Non-vacuity: a release, installed in a project *)
Example C85_nonvacuous : exists gh npm j, let root := "/home/me/node_modules/@notarize/qlc-cli" in
  version_ok "4.3.0" /\ sound_tools release_example /\ release release_example "4.3.0" = Some (gh, npm) /\ text_holds (pub_package npm) j /\
  directory root /\ main_export root = "/home/me/node_modules/@notarize/qlc-cli/bin/qlc" /\
  exists acts, install 3 (install_example "4.3.0") = Some (0, acts, None) /\
    performed root (archive_name (install_example "4.3.0") "x86_64-unknown-linux-musl") (fun x => [("qlc", (x, false))]) acts
      (put "/home/me/node_modules/@notarize/qlc-cli/bin/qlc" (Some ("", false)) (fun _ => None)) (main_export root)
    = Some ("build for x86_64-unknown-linux-musl", true).
Proof.
  assert (V : version_ok "4.3.0") by version_chars.
  destruct (C68_release release_example "4.3.0" V release_example_sound) as (gh & npm & R & _ & _ & _ & (j & cs & J & _) & _).
  exists gh, npm, j. cbv zeta. split; [exact V|]. split; [apply release_example_sound|]. split; [exact R|]. split; [exact J|]. split; [|split].
  - exists ["home"; "me"; "node_modules"; "@notarize"; "qlc-cli"]. split; [reflexivity|]. split; [discriminate|]. lits.
  - vm_compute. reflexivity.
  - eexists. split; [vm_compute; reflexivity|]. vm_compute. reflexivity.
Qed.
