(** Facts about the release scripts. *)
From Verif Require Export Release StringFacts.

(** ** Replacing in texts made of pieces *)
Lemma starts_with_app p s b : String.length p <= String.length s -> starts_with p (s +++ b) = starts_with p s.
Proof.
  revert s. induction p as [|c p IH]; intros s L; [destruct s; reflexivity|]. destruct s as [|d s]; [cbn in L; lia|].
  unfold starts_with in *. cbn [strip_prefix String.append]. destruct (Ascii.eqb c d); [|reflexivity]. apply IH. cbn in L. lia.
Qed.
Lemma starts_with_len p s : starts_with p s = true -> String.length p <= String.length s.
Proof. intros H. apply starts_with_spec in H. destruct H as [r ->]. rewrite slen_app. lia. Qed.
Lemma app_prefix a b c d : String.length a <= String.length c -> a +++ b = c +++ d -> exists r, c = a +++ r.
Proof.
  revert c. induction a as [|x a IH]; intros c L E; [exists c; reflexivity|]. destruct c as [|y c]; [cbn in L; lia|].
  cbn in E. injection E as -> E. cbn in L. destruct (IH c ltac:(lia) E) as [r ->]. exists r. reflexivity.
Qed.
(** No end of [a] is the beginning of the pattern *)
Fixpoint apart (pat a : string) : bool :=
  match a with
  | EmptyString => true
  | String _ a' => negb (starts_with a pat && (String.length a <? String.length pat)) && apart pat a'
  end.
Lemma replace_app pat by_ b : pat <> "" -> forall a k, apart pat a = true -> k <= String.length a ->
  replace_from pat by_ k (a +++ b) = replace_from pat by_ k a +++ replace_from pat by_ 0 b.
Proof.
  intros NE. induction a as [|c a IH]; intros k A L.
  - cbn in L. replace k with 0 by lia. reflexivity.
  - cbn [apart] in A. apply andb_true_iff in A. destruct A as [A0 A]. cbn [String.append replace_from]. destruct k as [|k].
    + change (String c (a +++ b)) with (String c a +++ b).
      destruct (Nat.lt_ge_cases (String.length (String c a)) (String.length pat)) as [S|S].
      * assert (starts_with pat (String c a +++ b) = false) as ->.
        { destruct (starts_with pat (String c a +++ b)) eqn:E; auto. apply starts_with_spec in E. destruct E as [r E].
          symmetry in E. apply eq_sym, app_prefix in E; [|lia]. apply starts_with_spec in E. rewrite E in A0. apply Nat.ltb_lt in S. rewrite S in A0. discriminate. }
        assert (starts_with pat (String c a) = false) as ->.
        { destruct (starts_with pat (String c a)) eqn:E; auto. apply starts_with_len in E. lia. }
        cbn [String.append]. f_equal. apply IH; auto. lia.
      * rewrite starts_with_app by auto. destruct (starts_with pat (String c a)).
        -- rewrite IH; auto; [rewrite sapp_assoc; reflexivity|]. cbn in S. lia.
        -- cbn [String.append]. f_equal. apply IH; auto. lia.
    + apply IH; auto. cbn in L. lia.
Qed.
Lemma replace_absent pat by_ s : has_part pat s = false -> replace pat by_ s = s.
Proof.
  unfold replace. induction s as [|c s IH]; auto. cbn [has_part replace_from]. intros H. apply orb_false_iff in H. destruct H as [H H'].
  rewrite H. f_equal. apply IH, H'.
Qed.
Lemma starts_with_refl s : starts_with s s = true.
Proof. apply starts_with_spec. exists "". rewrite sapp_nil_r. reflexivity. Qed.
Lemma replace_skip pat by_ s : replace_from pat by_ (String.length s) s = "".
Proof. induction s as [|c s IH]; auto. Qed.
Lemma replace_skip_app pat by_ b s : replace_from pat by_ (String.length s) (s +++ b) = replace_from pat by_ 0 b.
Proof. induction s as [|c s IH]; auto. Qed.
Lemma replace_whole_app pat by_ b : pat <> "" -> replace pat by_ (pat +++ b) = by_ +++ replace pat by_ b.
Proof.
  intros N. unfold replace. destruct pat as [|c p]; [congruence|]. cbn [replace_from String.append].
  change (String c (p +++ b)) with (String c p +++ b). rewrite starts_with_app by auto. rewrite starts_with_refl. cbn [String.length].
  replace (S (String.length p) - 1) with (String.length p) by lia. rewrite replace_skip_app. reflexivity.
Qed.
Lemma replace_whole pat by_ : pat <> "" -> replace pat by_ pat = by_.
Proof. intros N. pose proof (replace_whole_app pat by_ "" N) as E. rewrite !sapp_nil_r in E. exact E. Qed.
Definition joined (l : list string) : string := fold_right String.append "" l.
Lemma replace_joined pat by_ l : pat <> "" -> forallb (apart pat) l = true -> replace pat by_ (joined l) = joined (List.map (replace pat by_) l).
Proof.
  intros N. induction l as [|s l IH]; intros A; auto. cbn [forallb] in A. apply andb_true_iff in A. destruct A as [A Al].
  cbn [joined fold_right List.map]. unfold replace at 1. rewrite replace_app by (auto; lia). f_equal. apply IH, Al.
Qed.
Definition lacks (c : ascii) (s : string) : Prop := all (fun d => d <> c) s.
Lemma lacks_starts c p s : lacks c s -> starts_with (String c p) s = false.
Proof.
  intros L. destruct (starts_with (String c p) s) eqn:E; auto. apply starts_with_spec in E. destruct E as [r ->]. destruct L as [L _]. congruence.
Qed.
Lemma lacks_part c p s : lacks c s -> has_part (String c p) s = false.
Proof.
  induction s as [|d s IH]; intros L; [reflexivity|]. cbn [has_part]. rewrite (lacks_starts c p _ L). apply IH, L.
Qed.
Lemma lacks_apart c p s : lacks c s -> apart (String c p) s = true.
Proof.
  induction s as [|d s IH]; intros L; [reflexivity|]. cbn [apart]. apply andb_true_iff. split; [|apply IH, L].
  replace (starts_with (String d s) (String c p)) with false; auto. symmetry. destruct (starts_with (String d s) (String c p)) eqn:E; auto.
  apply starts_with_spec in E. destruct E as [r E]. injection E as E _. destruct L as [L _]. congruence.
Qed.

(** ** The version *)
Lemma shell_value_line v : lacks (ascii_of_nat 10) v -> shell_value (v +++ nl) = v.
Proof.
  induction v as [|c v IH]; intros L; [reflexivity|]. destruct L as [C L]. cbn [String.append shell_value]. rewrite (IH L).
  destruct v; auto. destruct (Ascii.eqb_spec c (ascii_of_nat 10)); congruence.
Qed.
Lemma part_char c pat s : (exists a b, pat = a +++ String c b) -> lacks c s -> has_part pat s = false.
Proof.
  intros (a & b & ->). induction s as [|d s IH]; intros L.
  - cbn. rewrite orb_false_r. destruct a; reflexivity.
  - cbn [has_part]. rewrite IH by apply L. rewrite orb_false_r. destruct (starts_with (a +++ String c b) (String d s)) eqn:E; auto.
    apply starts_with_spec in E. destruct E as [r E]. rewrite E in L. unfold lacks in L. rewrite !all_app in L. destruct L as [[_ [L _]] _]. congruence.
Qed.
Lemma all_mono (P Q : ascii -> Prop) s : (forall c, P c -> Q c) -> all P s -> all Q s.
Proof. intros H. induction s as [|c s IH]; cbn; auto. intros [A B]. split; auto. Qed.
Lemma version_read v : lacks " " v -> lacks (ascii_of_nat 10) v -> qlc_version v = v.
Proof.
  intros A B. unfold qlc_version, version_output.
  replace (replace "QL Compiler " "" ("QL Compiler " +++ v +++ nl)) with (v +++ nl); [apply shell_value_line, B|].
  change ("QL Compiler " +++ v +++ nl) with (joined ["QL Compiler "; v +++ nl]) || rewrite <- (sapp_nil_r (v +++ nl)) at 2.
  change ("QL Compiler " +++ (v +++ nl) +++ "") with (joined ["QL Compiler "; v +++ nl]).
  rewrite replace_joined; [|discriminate|].
  - cbn [List.map joined fold_right]. rewrite replace_whole by discriminate. cbn [String.append]. rewrite sapp_nil_r. symmetry. apply replace_absent.
    apply (part_char " "); [exists "QL", "Compiler "; reflexivity|]. apply all_app. split; auto. cbn. split; [discriminate|auto].
  - cbn [forallb]. rewrite andb_true_r. apply andb_true_iff. split; [vm_compute; reflexivity|].
    assert (K : forall s, s <> "" -> apart "QL Compiler " (s +++ nl) = true).
    { intros s _. induction s as [|c s IH]; [vm_compute; reflexivity|]. cbn [String.append apart]. rewrite IH, andb_true_r.
      destruct (starts_with (String c (s +++ nl)) "QL Compiler ") eqn:E; auto. apply starts_with_spec in E. destruct E as [r E].
      assert (I : In (ascii_of_nat 10) (list_ascii_of_string "QL Compiler ")).
      { rewrite E. change (String c (s +++ nl)) with (String c s +++ nl). clear. generalize (String c s). intros t.
        induction t as [|d t IH]; cbn; auto. }
      exfalso. revert I. vm_compute. intuition discriminate. }
    destruct v as [|c v]; [vm_compute; reflexivity|]. apply K. discriminate.
Qed.

(** ** Looking up checksums *)
Lemma here_app v a b : bre_here (v +++ a) (v +++ b) = bre_here a b.
Proof. induction v as [|c v IH]; auto. cbn [String.append bre_here]. rewrite Ascii.eqb_refl, orb_true_r. exact IH. Qed.
Lemma here_first c p s : c <> "."%char -> lacks c s -> bre_here (String c p) s = false.
Proof.
  intros D L. destruct s as [|d s]; auto. cbn [bre_here]. destruct (Ascii.eqb_spec c "."); [congruence|]. destruct L as [L _].
  destruct (Ascii.eqb_spec c d); [congruence|]. reflexivity.
Qed.
Lemma match_cons pat c s : bre_match pat (String c s) = bre_here pat (String c s) || bre_match pat s.
Proof. reflexivity. Qed.
Lemma match_lacks c p s : c <> "."%char -> lacks c s -> bre_match (String c p) s = false.
Proof.
  intros D. induction s as [|d s IH]; intros L; [reflexivity|]. cbn [bre_match]. rewrite (here_first c p _ D L). apply IH, L.
Qed.
Lemma match_skip c p a s : c <> "."%char -> lacks c a -> bre_match (String c p) (a +++ s) = bre_match (String c p) s.
Proof.
  intros D. induction a as [|d a IH]; intros L; auto. cbn [String.append bre_match]. rewrite IH by apply L.
  cbn [bre_here]. destruct (Ascii.eqb_spec c "."); [congruence|]. destruct L as [L _]. destruct (Ascii.eqb_spec c d); [congruence|]. reflexivity.
Qed.
Ltac lacking := cbn; repeat split; discriminate.
Lemma match_line v p h name : lacks "q" h -> bre_match (release_archive v p) (h +++ "  /opt/qlc/archives/" +++ name) = bre_match (release_archive v p) name.
Proof.
  intros H. change (release_archive v p) with (String "q" ("lc-" +++ v +++ "-" +++ p +++ ".tar.gz")). rewrite match_skip by (auto; discriminate).
  change ("  /opt/qlc/archives/" +++ name) with ("  /opt/" +++ String "q" ("lc/archives/" +++ name)). rewrite match_skip by (lacking || discriminate).
  rewrite match_cons. rewrite match_skip by (lacking || discriminate). reflexivity.
Qed.
(** A match of [a] and more in [s] leaves a match of the rest in what is left when as many characters are taken away *)
Lemma here_tail a : forall pat w, bre_here (a +++ pat) w = true -> exists w1 w2, w = w1 +++ w2 /\ String.length w1 = String.length a /\ bre_here pat w2 = true.
Proof.
  induction a as [|c a IH]; intros pat w H; [exists "", w; auto|]. destruct w as [|d w]; [discriminate H|]. cbn [String.append bre_here] in H.
  apply andb_prop in H. destruct H as [_ H]. destruct (IH _ _ H) as (w1 & w2 & -> & L & B). exists (String d w1), w2. cbn. auto.
Qed.
Lemma match_here pat s : bre_match pat s = true <-> exists z w, s = z +++ w /\ bre_here pat w = true.
Proof.
  split.
  - induction s as [|c s IH]; intros H.
    + exists "", "". cbn in H. rewrite orb_false_r in H. auto.
    + rewrite match_cons in H. apply orb_prop in H. destruct H as [H|H]; [exists "", (String c s); auto|].
      destruct (IH H) as (z & w & -> & B). exists (String c z), w. auto.
  - intros (z & w & -> & B). induction z as [|c z IH]; [|cbn [String.append]; rewrite match_cons, IH; apply orb_true_r].
    cbn [String.append]. destruct w; cbn [bre_match]; rewrite B; reflexivity.
Qed.
Lemma longer_tail a : forall st w1 w2, a +++ st = w1 +++ w2 -> String.length a <= String.length w1 -> exists z, st = z +++ w2.
Proof.
  induction a as [|c a IH]; intros st w1 w2 E L; [exists w1; exact E|]. destruct w1 as [|d w1]; [cbn in L; lia|]. injection E as _ E. eapply IH; [exact E|cbn in L; lia].
Qed.
Lemma match_tail a pat st : bre_match (a +++ pat) (a +++ st) = true -> bre_match pat st = true.
Proof.
  rewrite !match_here. intros (z & w & E & B). destruct (here_tail _ _ _ B) as (w1 & w2 & -> & L & B'). rewrite <- sapp_assoc in E.
  destruct (longer_tail a st (z +++ w1) w2 E) as (y & ->); [rewrite slen_app; lia|]. eauto.
Qed.
Lemma match_names v p p' : In p platforms -> In p' platforms ->
  (bre_match (release_archive v p) (release_archive v p') = true <-> p = p').
Proof.
  intros I I'. split.
  - intros M.
    assert (M' : bre_match (p +++ ".tar.gz") (p' +++ ".tar.gz") = true).
    { apply (match_tail ("qlc-" +++ v +++ "-")). rewrite !sapp_assoc. exact M. }
    clear M. unfold platforms in I, I'. cbn [In] in I, I'. destruct I as [<-|[<-|[<-|[<-|[]]]]]; destruct I' as [<-|[<-|[<-|[<-|[]]]]]; first [reflexivity|vm_compute in M'; discriminate M'].
  - intros <-. apply match_here. exists "", (release_archive v p). split; [reflexivity|]. pose proof (here_app (release_archive v p) "" "") as X. rewrite sapp_nil_r in X. exact X.
Qed.
Lemma first_word_app h s : all (fun c => is_space c = false) h -> first_word (h +++ String " " s) = h.
Proof. induction h as [|c h IH]; intros A; [reflexivity|]. destruct A as [C A]. cbn [String.append first_word]. rewrite C, (IH A). reflexivity. Qed.

(** ** The package file *)
Definition T0 : string := "{
  ""name"": ""@notarize/qlc-cli"",
  ""version"": """.
Definition T1 : string := ",
  ""author"": ""Notarize Inc."",
  ""license"": ""MIT"",
  ""description"": ""A module for using QLC in a Node project"",
  ""types"": ""./lib/index.d.ts"",
  ""main"": ""./lib/index.js"",
  ""exports"": {
    ""."": ""./lib/index.js"",
    ""./typed-documentnode"": ""./lib/typed-documentnode.js""
  },
  ""bin"": {
    ""qlc"": ""bin/qlc"",
    ""qlc-download-schema"": ""bin/qlc-download-schema""
  },
  ""checksumConfig"": {
    ""aarch64-apple-darwin"": """.
Definition T2 : string := ",
    ""x86_64-apple-darwin"": """.
Definition T3 : string := ",
    ""aarch64-unknown-linux-musl"": """.
Definition T4 : string := ",
    ""x86_64-unknown-linux-musl"": """.
Definition T5 : string := "
  },
  ""files"": [
    ""bin"",
    ""lib""
  ],
  ""repository"": {
    ""type"": ""git"",
    ""url"": ""https://github.com/notarize/qlc.git""
  },
  ""keywords"": [
    ""gql"",
    ""generator"",
    ""types"",
    ""interfaces"",
    ""graphql"",
    ""codegen"",
    ""apollo"",
    ""typescript"",
    ""ts"",
    ""typings""
  ],
  ""bugs"": {
    ""url"": ""https://github.com/notarize/qlc/issues""
  },
  ""homepage"": ""https://github.com/notarize/qlc"",
  ""scripts"": {
    ""postinstall"": ""node ./lib/postinstall.js""
  },
  ""optionalDependencies"": {
    ""graphql"": ""*""
  }
}
".
Definition qm : string := just quote_mark.
Definition pieces_of (v c1 c2 c3 c4 : string) : list string := [T0; v +++ qm; T1; c1 +++ qm; T2; c2 +++ qm; T3; c3 +++ qm; T4; c4 +++ qm; T5].
Definition hole (p : string) : string := "@" +++ p +++ "_CHECKSUM@".
Lemma template_pieces : package_template = joined (pieces_of "@QLC_VERSION@" (hole "aarch64-apple-darwin") (hole "x86_64-apple-darwin") (hole "aarch64-unknown-linux-musl") (hole "x86_64-unknown-linux-musl")).
Proof. vm_compute. reflexivity. Qed.
Lemma part_at p v : lacks "@" v -> has_part (String "@" p) v = false.
Proof. apply lacks_part. Qed.
(** One step of sed on the pieces *)
Definition becomes (pat by_ x y : string) : Prop := apart pat x = true /\ replace pat by_ x = y.
Lemma fill_pieces pat by_ l l' : pat <> "" -> Forall2 (becomes pat by_) l l' -> replace pat by_ (joined l) = joined l'.
Proof.
  intros N F. rewrite replace_joined; auto.
  - f_equal. induction F as [|x y l l' [_ E] F IH]; cbn; [auto|]. rewrite E, IH. auto.
  - induction F as [|x y l l' [A _] F IH]; cbn; [auto|]. rewrite A, IH. auto.
Qed.
Lemma stays pat by_ x : apart pat x && negb (has_part pat x) = true -> becomes pat by_ x x.
Proof. intros H. apply andb_true_iff in H. destruct H as [A H]. split; auto. apply replace_absent. now apply negb_true_iff. Qed.
Lemma stays_var p by_ x : lacks "@" x -> becomes (String "@" p) by_ x x.
Proof. intros L. split; [apply lacks_apart, L|apply replace_absent, lacks_part, L]. Qed.
Lemma goes pat by_ : pat <> "" -> apart pat (pat +++ qm) && negb (has_part pat qm) = true -> becomes pat by_ (pat +++ qm) (by_ +++ qm).
Proof.
  intros N A. apply andb_true_iff in A. destruct A as [A B]. split; auto. rewrite replace_whole_app by auto. f_equal. apply replace_absent. now apply negb_true_iff.
Qed.
Definition patterns : list string := ["@QLC_VERSION@"; hole "aarch64-apple-darwin"; hole "x86_64-apple-darwin"; hole "aarch64-unknown-linux-musl"; hole "x86_64-unknown-linux-musl"].
Lemma stays_text : forallb (fun pat => forallb (fun x => apart pat x && negb (has_part pat x)) [T0; T1; T2; T3; T4; T5]) patterns = true.
Proof. vm_compute. reflexivity. Qed.
Lemma stays_piece pat by_ x : In pat patterns -> In x [T0; T1; T2; T3; T4; T5] -> becomes pat by_ x x.
Proof.
  intros I J. apply stays. pose proof stays_text as H. rewrite forallb_forall in H. specialize (H pat I). rewrite forallb_forall in H. exact (H x J).
Qed.
Lemma stays_pattern : forallb (fun pat => forallb (fun x => String.eqb pat x || (apart pat (x +++ qm) && negb (has_part pat (x +++ qm)))) patterns) patterns = true.
Proof. vm_compute. reflexivity. Qed.
Lemma apart_self : forallb (fun pat => apart pat (pat +++ qm) && negb (has_part pat qm)) patterns = true.
Proof. vm_compute. reflexivity. Qed.
Lemma stays_hole pat by_ x : In pat patterns -> In x patterns -> pat <> x -> becomes pat by_ (x +++ qm) (x +++ qm).
Proof.
  intros I J N. pose proof stays_pattern as H. rewrite forallb_forall in H. specialize (H pat I). rewrite forallb_forall in H. specialize (H x J).
  destruct (String.eqb_spec pat x); [congruence|]. apply stays. exact H.
Qed.
Lemma goes_hole pat by_ : In pat patterns -> becomes pat by_ (pat +++ qm) (by_ +++ qm).
Proof.
  intros I. apply goes.
  - intros ->. cbn in I. repeat (destruct I as [I|I]; [discriminate|]). destruct I.
  - pose proof apart_self as H. rewrite forallb_forall in H. exact (H pat I).
Qed.
Opaque T0 T1 T2 T3 T4 T5.
Definition H0 : string := "@QLC_VERSION@".
Definition H1 : string := hole "aarch64-apple-darwin".
Definition H2 : string := hole "x86_64-apple-darwin".
Definition H3 : string := hole "aarch64-unknown-linux-musl".
Definition H4 : string := hole "x86_64-unknown-linux-musl".
Lemma patterns_H : patterns = [H0; H1; H2; H3; H4].
Proof. reflexivity. Qed.
Lemma H_not : H0 <> "" /\ H1 <> "" /\ H2 <> "" /\ H3 <> "" /\ H4 <> "".
Proof. repeat split; discriminate. Qed.
Lemma H_apart : H0 <> H1 /\ H0 <> H2 /\ H0 <> H3 /\ H0 <> H4 /\ H4 <> H1 /\ H4 <> H2 /\ H4 <> H3 /\ H3 <> H1 /\ H3 <> H2 /\ H2 <> H1.
Proof. repeat split; discriminate. Qed.
Lemma H_at : forall h, In h patterns -> exists p, h = String "@" p.
Proof. rewrite patterns_H. cbn [In]. intros h [<-|[<-|[<-|[<-|[<-|[]]]]]]; eexists; reflexivity. Qed.
Lemma stays_value h by_ x : In h patterns -> lacks "@" x -> becomes h by_ (x +++ qm) (x +++ qm).
Proof. intros I L. destruct (H_at h I) as [p ->]. apply stays_var. apply all_app. split; auto. cbn. split; [discriminate|auto]. Qed.
Ltac listed := rewrite ?patterns_H; cbn [In]; tauto.
Ltac piece := first [apply stays_piece; [listed|listed] | apply goes_hole; listed | apply stays_hole; [listed|listed|pose proof H_apart; tauto] | apply stays_value; [listed|assumption]].
Lemma filled v c1 c2 c3 c4 : lacks "@" v -> lacks "@" c1 -> lacks "@" c2 -> lacks "@" c3 -> lacks "@" c4 ->
  replace H1 c4 (replace H2 c3 (replace H3 c2 (replace H4 c1 (replace H0 v package_template)))) = joined (pieces_of v c4 c3 c2 c1).
Proof.
  intros V C1 C2 C3 C4. pose proof H_not as (N0 & N1 & N2 & N3 & N4).
  assert (E : package_template = joined (pieces_of H0 H1 H2 H3 H4)) by exact template_pieces. rewrite E. clear E.
  rewrite (fill_pieces H0 v (pieces_of H0 H1 H2 H3 H4) (pieces_of v H1 H2 H3 H4)) by (auto; unfold pieces_of; repeat (constructor; [piece|]); constructor).
  rewrite (fill_pieces H4 c1 (pieces_of v H1 H2 H3 H4) (pieces_of v H1 H2 H3 c1)) by (auto; unfold pieces_of; repeat (constructor; [piece|]); constructor).
  rewrite (fill_pieces H3 c2 (pieces_of v H1 H2 H3 c1) (pieces_of v H1 H2 c2 c1)) by (auto; unfold pieces_of; repeat (constructor; [piece|]); constructor).
  rewrite (fill_pieces H2 c3 (pieces_of v H1 H2 c2 c1) (pieces_of v H1 c3 c2 c1)) by (auto; unfold pieces_of; repeat (constructor; [piece|]); constructor).
  rewrite (fill_pieces H1 c4 (pieces_of v H1 c3 c2 c1) (pieces_of v c4 c3 c2 c1)) by (auto; unfold pieces_of; repeat (constructor; [piece|]); constructor).
  reflexivity.
Qed.

(** ** Reading the package file *)
Fixpoint jrun (st : lexer) (s : string) : option (list jtoken * lexer) :=
  match s with
  | EmptyString => Some ([], st)
  | String c s' => match lex_step st c with
                   | None => None
                   | Some (ts, st') => match jrun st' s' with Some (more, st2) => Some (ts ++ more, st2) | None => None end
                   end
  end.
Lemma jlex_app a : forall st b, jlex st (a +++ b) = match jrun st a with Some (ts, st') => onto ts (jlex st' b) | None => None end.
Proof.
  induction a as [|c a IH]; intros st b; cbn [String.append jlex jrun]; [rewrite onto_nil; reflexivity|].
  destruct (lex_step st c) as [[ts st']|]; [|reflexivity]. rewrite IH. destruct (jrun st' a) as [[more st2]|]; [|reflexivity].
  destruct (jlex st2 b); cbn; [rewrite app_assoc; reflexivity|reflexivity].
Qed.
Lemma jrun_plain s : all plain_char s -> forall acc, jrun (LStr acc) s = Some ([], LStr (acc +++ s)).
Proof.
  induction s as [|c s IH]; intros A acc; cbn [jrun]; [rewrite sapp_nil_r; reflexivity|]. destruct A as [C A]. apply plain_spec in C. destruct C as (C1 & C2 & C3).
  cbn [lex_step]. rewrite C1, C2, C3. rewrite (IH A). rewrite snoc_app. reflexivity.
Qed.
(** Plain ASCII strings are decoded to themselves *)
Definition ascii_char (c : ascii) : Prop := plain_char c /\ nat_of_ascii c < 128.
Lemma string_plain s : all ascii_char s -> json_string s = Some s.
Proof.
  intros A. unfold json_string. assert (U : unescape s = Some s).
  { induction s as [|c s IH]; auto. destruct A as [[C _] A]. rewrite unescape_plain by (apply plain_spec in C; tauto). rewrite (IH A). reflexivity. }
  rewrite U. assert (V : utf8_valid s = true); [|rewrite V; reflexivity]. clear U.
  induction s as [|c s IH]; auto. destruct A as [[_ C] A]. cbn [utf8_valid]. replace (code c <? 128)%N with true; [apply IH, A|].
  symmetry. apply N.ltb_lt. rewrite code_nat. lia.
Qed.
Transparent T0 T1 T2 T3 T4 T5.
Definition package_tree (v c1 c2 c3 c4 : string) : jtree :=
  RObj [("name", RStr "@notarize/qlc-cli"); ("version", RStr v); ("author", RStr "Notarize Inc."); ("license",
   RStr "MIT"); ("description", RStr "A module for using QLC in a Node project"); ("types", RStr
   "./lib/index.d.ts"); ("main", RStr "./lib/index.js"); ("exports", RObj [(".", RStr "./lib/index.js");
   ("./typed-documentnode", RStr "./lib/typed-documentnode.js")]); ("bin", RObj [("qlc", RStr "bin/qlc");
   ("qlc-download-schema", RStr "bin/qlc-download-schema")]); ("checksumConfig", RObj
   [("aarch64-apple-darwin", RStr c1); ("x86_64-apple-darwin", RStr c2); ("aarch64-unknown-linux-musl", RStr
   c3); ("x86_64-unknown-linux-musl", RStr c4)]); ("files", RArr [RStr "bin"; RStr "lib"]); ("repository",
   RObj [("type", RStr "git"); ("url", RStr "https://github.com/notarize/qlc.git")]); ("keywords", RArr [RStr
   "gql"; RStr "generator"; RStr "types"; RStr "interfaces"; RStr "graphql"; RStr "codegen"; RStr "apollo";
   RStr "typescript"; RStr "ts"; RStr "typings"]); ("bugs", RObj [("url", RStr
   "https://github.com/notarize/qlc/issues")]); ("homepage", RStr "https://github.com/notarize/qlc");
   ("scripts", RObj [("postinstall", RStr "node ./lib/postinstall.js")]); ("optionalDependencies", RObj
   [("graphql", RStr "*")])].
Definition package_value (v c1 c2 c3 c4 : string) : json :=
  JObj [("name", JStr "@notarize/qlc-cli"); ("version", JStr v); ("author", JStr "Notarize Inc."); ("license",
   JStr "MIT"); ("description", JStr "A module for using QLC in a Node project"); ("types", JStr
   "./lib/index.d.ts"); ("main", JStr "./lib/index.js"); ("exports", JObj [(".", JStr "./lib/index.js");
   ("./typed-documentnode", JStr "./lib/typed-documentnode.js")]); ("bin", JObj [("qlc", JStr "bin/qlc");
   ("qlc-download-schema", JStr "bin/qlc-download-schema")]); ("checksumConfig", JObj
   [("aarch64-apple-darwin", JStr c1); ("x86_64-apple-darwin", JStr c2); ("aarch64-unknown-linux-musl", JStr
   c3); ("x86_64-unknown-linux-musl", JStr c4)]); ("files", JArr [JStr "bin"; JStr "lib"]); ("repository",
   JObj [("type", JStr "git"); ("url", JStr "https://github.com/notarize/qlc.git")]); ("keywords", JArr [JStr
   "gql"; JStr "generator"; JStr "types"; JStr "interfaces"; JStr "graphql"; JStr "codegen"; JStr "apollo";
   JStr "typescript"; JStr "ts"; JStr "typings"]); ("bugs", JObj [("url", JStr
   "https://github.com/notarize/qlc/issues")]); ("homepage", JStr "https://github.com/notarize/qlc");
   ("scripts", JObj [("postinstall", JStr "node ./lib/postinstall.js")]); ("optionalDependencies", JObj
   [("graphql", JStr "*")])].
Lemma package_toks v c1 c2 c3 c4 : all plain_char v -> all plain_char c1 -> all plain_char c2 -> all plain_char c3 -> all plain_char c4 ->
  jlex LBetween (joined (pieces_of v c1 c2 c3 c4)) = Some (toks (package_tree v c1 c2 c3 c4)).
Proof.
  intros P P1 P2 P3 P4. unfold pieces_of, joined. cbn [fold_right]. rewrite !sapp_assoc. rewrite sapp_nil_r.
  assert (Q : forall s x, all plain_char s -> jlex (LStr "") (s +++ qm +++ x) = onto [KStr s] (jlex LBetween x)).
  { intros s x A. rewrite jlex_app, jrun_plain by auto. rewrite onto_nil. unfold qm, just. cbn [String.append]. apply lex_cons. reflexivity. }
  rewrite jlex_app. let r := eval vm_compute in (jrun LBetween T0) in replace (jrun LBetween T0) with r by (vm_compute; reflexivity). cbv iota beta.
  rewrite Q by auto.
  rewrite jlex_app. let r := eval vm_compute in (jrun LBetween T1) in replace (jrun LBetween T1) with r by (vm_compute; reflexivity). cbv iota beta.
  rewrite Q by auto.
  rewrite jlex_app. let r := eval vm_compute in (jrun LBetween T2) in replace (jrun LBetween T2) with r by (vm_compute; reflexivity). cbv iota beta.
  rewrite Q by auto.
  rewrite jlex_app. let r := eval vm_compute in (jrun LBetween T3) in replace (jrun LBetween T3) with r by (vm_compute; reflexivity). cbv iota beta.
  rewrite Q by auto.
  rewrite jlex_app. let r := eval vm_compute in (jrun LBetween T4) in replace (jrun LBetween T4) with r by (vm_compute; reflexivity). cbv iota beta.
  rewrite Q by auto.
  let r := eval vm_compute in (jlex LBetween T5) in replace (jlex LBetween T5) with r by (vm_compute; reflexivity).
  vm_compute. reflexivity.
Qed.
Lemma package_parsed v c1 c2 c3 c4 : all plain_char v -> all plain_char c1 -> all plain_char c2 -> all plain_char c3 -> all plain_char c4 ->
  parse_tree (joined (pieces_of v c1 c2 c3 c4)) = Some (package_tree v c1 c2 c3 c4).
Proof. intros P P1 P2 P3 P4. unfold parse_tree. rewrite package_toks by auto. apply run_complete. Qed.
Lemma package_cooked v c1 c2 c3 c4 : all ascii_char v -> all ascii_char c1 -> all ascii_char c2 -> all ascii_char c3 -> all ascii_char c4 ->
  cook (package_tree v c1 c2 c3 c4) = package_value v c1 c2 c3 c4.
Proof.
  intros P P1 P2 P3 P4. apply string_plain in P, P1, P2, P3, P4. unfold package_tree, package_value. cbn [cook List.map]. rewrite P, P1, P2, P3, P4.
  repeat match goal with |- context [json_string ?s] => replace (json_string s) with (Some s) by (vm_compute; reflexivity) end. reflexivity.
Qed.
Lemma ascii_plain s : all ascii_char s -> all plain_char s.
Proof. apply all_mono. intros c [H _]. exact H. Qed.
Lemma package_holds v c1 c2 c3 c4 : all ascii_char v -> all ascii_char c1 -> all ascii_char c2 -> all ascii_char c3 -> all ascii_char c4 ->
  text_holds (joined (pieces_of v c1 c2 c3 c4)) (package_value v c1 c2 c3 c4).
Proof.
  intros P P1 P2 P3 P4. apply read_json_spec. unfold read_json. rewrite package_parsed by (apply ascii_plain; auto). cbn [option_map].
  rewrite package_cooked by auto. reflexivity.
Qed.
