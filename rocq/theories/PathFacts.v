(** Facts about the path operations of [Path]. *)
From Verif Require Export SpecPath Path BaseFacts.
From Coq Require Import Lia.

(** *** Reversal *)
Lemma srev_acc_app s acc : srev_acc s acc = srev s +++ acc.
Proof.
  unfold srev. revert acc. induction s as [|c s IH]; intros acc; cbn; auto.
  rewrite IH, (IH (String c "")). rewrite sapp_assoc. reflexivity.
Qed.
Lemma srev_cons c s : srev (String c s) = srev s +++ String c "".
Proof. unfold srev at 1. cbn [srev_acc]. apply srev_acc_app. Qed.
Lemma srev_app a b : srev (a +++ b) = srev b +++ srev a.
Proof.
  induction a as [|c a IH]; cbn [append].
  - change (srev "") with "". rewrite sapp_nil_r. auto.
  - rewrite !srev_cons, IH, sapp_assoc. auto.
Qed.
Lemma srev_srev s : srev (srev s) = s.
Proof. induction s as [|c s IH]; auto. rewrite srev_cons, srev_app, IH. reflexivity. Qed.
Lemma srev_len s : String.length (srev s) = String.length s.
Proof. induction s as [|c s IH]; auto. rewrite srev_cons, slen_app, IH. cbn. lia. Qed.
Lemma srev_inj a b : srev a = srev b -> a = b.
Proof. intros H. rewrite <- (srev_srev a), H. apply srev_srev. Qed.

Lemma has_char_app c a b : has_char c (a +++ b) <-> has_char c a \/ has_char c b.
Proof. induction a as [|x a IH]; cbn; [tauto|]. rewrite IH. tauto. Qed.
Lemma has_char_srev c s : has_char c (srev s) <-> has_char c s.
Proof.
  induction s as [|x s IH]; [tauto|]. rewrite srev_cons, has_char_app, IH. cbn. tauto.
Qed.
Lemma has_char_dec c s : {has_char c s} + {~ has_char c s}.
Proof. induction s as [|x s IH]; cbn; [auto|]. destruct (ascii_dec x c); [auto|]. destruct IH; [auto|]. right. tauto. Qed.

Lemma take_app a b : take (String.length a) (a +++ b) = a.
Proof. induction a; cbn; [destruct b; auto|]. congruence. Qed.
Lemma take_all a : take (String.length a) a = a.
Proof. rewrite <- (sapp_nil_r a) at 2. apply take_app. Qed.
Lemma drop_app a b : drop (String.length a) (a +++ b) = b.
Proof. induction a; cbn; auto. Qed.

(** *** Last component of DIR/NAME *)
Lemma ends_with_sep_app a c : ends_with_sep (a +++ String c "") = Ascii.eqb c sep.
Proof.
  induction a as [|x a IH]; [reflexivity|]. cbn [append ends_with_sep]. rewrite <- IH.
  destruct (a +++ String c "") eqn:E; auto. destruct a; discriminate.
Qed.
Lemma last_char s : s <> "" -> exists a c, s = a +++ String c "".
Proof.
  induction s as [|x s IH]; [congruence|]. intros _. destruct s as [|y s].
  - exists "", x. auto.
  - destruct IH as (a & c & E); [discriminate|]. exists (String x a), c. cbn. congruence.
Qed.

(** Any path text that ends in an entry name preceded by nothing or a separator *)
Definition ends_in (s dir n : string) : Prop := s = dir +++ n /\ (dir = "" \/ ends_with_sep dir = true).

Lemma path_join_ends dir n : entry_name n -> exists d, ends_in (path_join dir n) d n.
Proof.
  intros (N1 & N2 & N3 & N4). unfold path_join, is_absolute.
  destruct n as [|a n]; [congruence|].
  destruct (Ascii.eqb a sep) eqn:E.
  { apply Ascii.eqb_eq in E. exfalso. apply N4. cbn. auto. }
  destruct dir as [|x dir].
  - exists "". split; auto.
  - destruct (ends_with_sep (String x dir)) eqn:Es.
    + exists (String x dir). split; auto.
    + exists (String x dir +++ "/"). split; [rewrite sapp_assoc; auto|]. right.
      apply (ends_with_sep_app (String x dir)).
Qed.

Lemma trim_right_rev_id fuel n d : n <> "" -> srev n <> "." -> ~ has_char sep n ->
  (d = "" \/ exists d', d = String sep d') -> trim_right_rev fuel (n +++ d) = n +++ d.
Proof.
  intros N1 N2 N3 D. destruct fuel as [|k]; [reflexivity|]. destruct n as [|a n]; [congruence|].
  cbn [append trim_right_rev]. cbn [has_char] in N3.
  destruct (n +++ d) as [|b r] eqn:E; [reflexivity|].
  destruct (Ascii.eqb a sep) eqn:Ea. { apply Ascii.eqb_eq in Ea. tauto. }
  destruct (Ascii.eqb a dot && Ascii.eqb b sep) eqn:Eb; [|reflexivity].
  apply andb_true_iff in Eb. destruct Eb as [Eb1 Eb2]. apply Ascii.eqb_eq in Eb1, Eb2. subst a b.
  exfalso. destruct n as [|c n].
  - apply N2. reflexivity.
  - cbn in E. inversion E; subst. apply N3. cbn. auto.
Qed.

Lemma srev_ends dir : ends_with_sep dir = true -> exists d', srev dir = String sep d'.
Proof.
  intros H. destruct (last_char dir) as (a & c & ->). { intros ->. discriminate. }
  rewrite ends_with_sep_app in H. apply Ascii.eqb_eq in H. subst. rewrite srev_app. cbn. eauto.
Qed.

Lemma trim_right_ends s dir n : entry_name n -> ends_in s dir n -> trim_right s = s.
Proof.
  intros (N1 & N2 & N3 & N4) [-> D]. unfold trim_right. rewrite srev_app.
  rewrite trim_right_rev_id.
  - rewrite <- srev_app. apply srev_srev.
  - intros E. apply N1. apply srev_inj. auto.
  - rewrite srev_srev. auto.
  - rewrite has_char_srev. auto.
  - destruct D as [->|D]; [left; auto|right]. apply srev_ends. auto.
Qed.

Lemma last_piece_rev_app n d : ~ has_char sep n -> (d = "" \/ exists d', d = String sep d') ->
  last_piece_rev (n +++ d) = n.
Proof.
  intros N D. induction n as [|a n IH]; cbn [append].
  - destruct D as [->|[d' ->]]; reflexivity.
  - cbn [last_piece_rev]. cbn in N. destruct (Ascii.eqb a sep) eqn:E.
    + apply Ascii.eqb_eq in E. tauto.
    + rewrite IH; tauto.
Qed.

Lemma last_piece_ends s dir n : entry_name n -> ends_in s dir n -> last_piece s = n.
Proof.
  intros N E. unfold last_piece. rewrite (trim_right_ends s dir n) by auto.
  destruct N as (N1 & N2 & N3 & N4). destruct E as [-> D]. rewrite srev_app.
  rewrite last_piece_rev_app.
  - apply srev_srev.
  - rewrite has_char_srev. auto.
  - destruct D as [->|D]; [left; auto|right]. apply srev_ends. auto.
Qed.

Lemma file_name_ends s dir n : entry_name n -> ends_in s dir n -> file_name s = Some n.
Proof.
  intros N E. unfold file_name. rewrite (last_piece_ends s dir n) by auto.
  destruct N as (N1 & N2 & N3 & N4). apply String.eqb_neq in N1, N2, N3. rewrite N1, N2, N3. reflexivity.
Qed.

(** *** Extensions *)
Lemma rfind_app_r c a b : rfind c b <> None -> rfind c (a +++ b) = option_map (fun i => String.length a + i) (rfind c b).
Proof.
  intros H. induction a as [|x a IH]; cbn [append rfind String.length].
  - destruct (rfind c b); [reflexivity|congruence].
  - rewrite IH. destruct (rfind c b); [reflexivity|congruence].
Qed.
Lemma rfind_None c s : rfind c s = None <-> ~ has_char c s.
Proof.
  induction s as [|x s IH]; cbn; [tauto|]. destruct (rfind c s).
  - split; [discriminate|]. intros H. exfalso. apply H. right.
    destruct (has_char_dec c s); auto. apply IH in n0. discriminate.
  - destruct (Ascii.eqb x c) eqn:E.
    + apply Ascii.eqb_eq in E. split; [discriminate|tauto].
    + apply Ascii.eqb_neq in E. split; auto. intros _ [H|H]; [congruence|]. apply IH; auto.
Qed.
Lemma rfind_Some c s i : rfind c s = Some i <-> exists a b, s = a +++ String c b /\ String.length a = i /\ ~ has_char c b.
Proof.
  split.
  - revert i. induction s as [|x s IH]; cbn; intros i H; [discriminate|].
    destruct (rfind c s) as [j|] eqn:E.
    + inversion H; subst. destruct (IH j eq_refl) as (a & b & -> & L & N). exists (String x a), b.
      cbn. auto.
    + destruct (Ascii.eqb x c) eqn:Ex; [|discriminate]. apply Ascii.eqb_eq in Ex. subst. inversion H; subst.
      exists "", s. apply rfind_None in E. auto.
  - intros (a & b & -> & L & N). rewrite rfind_app_r.
    + cbn [rfind]. apply rfind_None in N. rewrite N, Ascii.eqb_refl. cbn. f_equal. lia.
    + cbn [rfind]. apply rfind_None in N. rewrite N, Ascii.eqb_refl. discriminate.
Qed.

Lemma split_file_app stem ext : stem <> "" -> ~ has_char dot ext ->
  split_file_at_dot (stem +++ "." +++ ext) = (stem, Some ext).
Proof.
  intros Ns E. unfold split_file_at_dot.
  assert (R : rfind dot (stem +++ "." +++ ext) = Some (String.length stem)).
  { apply rfind_Some. exists stem, ext. auto. }
  rewrite R. destruct stem as [|c stem]; [congruence|]. cbn [String.length].
  f_equal.
  - change (S (String.length stem)) with (String.length (String c stem)). apply take_app.
  - f_equal. change (S (S (String.length stem))) with (S (String.length (String c stem))).
    replace (S (String.length (String c stem))) with (String.length (String c stem +++ "."))
      by (rewrite slen_app; cbn; lia).
    rewrite <- sapp_assoc. apply drop_app.
Qed.
Lemma split_file_ext f stem ext : split_file_at_dot f = (stem, Some ext) -> stem <> "" /\ f = stem +++ "." +++ ext.
Proof.
  unfold split_file_at_dot. destruct (rfind dot f) as [[|i]|] eqn:R; try discriminate.
  apply rfind_Some in R. destruct R as (a & b & -> & L & N).
  rewrite <- L. rewrite take_app.
  replace (drop (S (String.length a)) (a +++ String dot b)) with b.
  2: { replace (S (String.length a)) with (String.length (a +++ ".")) by (rewrite slen_app; cbn; lia).
       replace (a +++ String dot b) with ((a +++ ".") +++ b) by (rewrite sapp_assoc; reflexivity).
       symmetry. apply drop_app. }
  intros H. inversion H; subst. split; [|reflexivity]. intros ->. discriminate.
Qed.

(** Which entries are source files *)
Lemma extension_graphql s dir n : entry_name n -> ends_in s dir n ->
  (path_extension s = Some "graphql" <-> source_name n).
Proof.
  intros N E. unfold path_extension. rewrite (file_name_ends s dir n) by auto.
  destruct (split_file_at_dot n) as [stem [ext|]] eqn:Es; cbn [snd]; split.
  - intros H. inversion H; subst. apply split_file_ext in Es. destruct Es as [A B]. exists stem. auto.
  - intros (st & A & ->).
    change (st +++ ".graphql") with (st +++ "." +++ "graphql") in Es. rewrite split_file_app in Es; auto.
    + congruence.
    + cbn. intuition discriminate.
  - discriminate.
  - intros (st & A & ->).
    change (st +++ ".graphql") with (st +++ "." +++ "graphql") in Es. rewrite split_file_app in Es; auto.
    + congruence.
    + cbn. intuition discriminate.
Qed.

(** The output of a source file is written next to it *)
Lemma with_extension_source s dir n : entry_name n -> ends_in s dir n -> source_name n ->
  with_extension s "graphql.d.ts" = s +++ ".d.ts".
Proof.
  intros N E (stem & S & En). unfold with_extension. rewrite (file_name_ends s dir n) by auto.
  rewrite (trim_right_ends s dir n) by auto.
  destruct E as [-> D]. subst n.
  change (stem +++ ".graphql") with (stem +++ "." +++ "graphql").
  rewrite split_file_app; auto; [|cbn; intuition discriminate]. cbn [fst].
  replace (String.length (dir +++ stem +++ "." +++ "graphql") - String.length (stem +++ "." +++ "graphql") + String.length stem)
    with (String.length (dir +++ stem)).
  2: { rewrite !slen_app. cbn [String.length]. lia. }
  rewrite <- (sapp_assoc dir stem). rewrite take_app. rewrite !sapp_assoc. reflexivity.
Qed.

Lemma has_char_ext c s : has_char c s -> exists a b, s = a +++ String c b.
Proof.
  induction s as [|x s IH]; cbn; [contradiction|]. intros [->|H].
  - exists "", s. auto.
  - destruct (IH H) as (a & b & ->). exists (String x a), b. auto.
Qed.

(** An output name is not a source name *)
Lemma output_not_source n : ~ source_name (n +++ ".d.ts").
Proof.
  intros (stem & _ & E). apply (f_equal srev) in E. rewrite !srev_app in E. cbn in E. discriminate.
Qed.

(** ** Paths beside a file and under a directory *)
Lemma srev_single a : srev (String a "") = String a "".
Proof. reflexivity. Qed.
Lemma trim_tidy fuel d : tidy_dir d -> String.length d <= fuel -> trim_right_rev fuel (srev d) = srev d.
Proof.
  intros (a & m & -> & N1 & N2 & D) _. rewrite srev_app. destruct D as [->|(N3 & a' & ->)].
  - cbn [srev srev_acc]. destruct (String.eqb_spec m ".") as [->|Nd].
    + destruct fuel; reflexivity.
    + apply trim_right_rev_id; auto.
      * intros E. apply N1. apply srev_inj. exact E.
      * rewrite srev_srev. exact Nd.
      * rewrite has_char_srev. exact N2.
  - apply trim_right_rev_id.
    + intros E. apply N1. apply srev_inj. exact E.
    + rewrite srev_srev. exact N3.
    + rewrite has_char_srev. exact N2.
    + right. rewrite srev_app. cbn. eauto.
Qed.
Lemma tidy_nonempty d : tidy_dir d -> d <> "".
Proof. intros (a & m & -> & N & _) E. destruct a; [destruct m; [apply N; reflexivity|discriminate E]|discriminate E]. Qed.
Lemma tidy_ends d : tidy_dir d -> ends_with_sep d = false.
Proof.
  intros (a & m & -> & N1 & N2 & _). destruct (last_char m N1) as (x & c & ->). rewrite <- sapp_assoc, ends_with_sep_app.
  destruct (Ascii.eqb_spec c sep) as [->|]; [|reflexivity]. exfalso. apply N2. apply has_char_app. right. left. reflexivity.
Qed.
Lemma pop_ends dir n : entry_name n -> dir = "" \/ ends_with_sep dir = true -> path_pop (dir +++ n) = trim_right dir.
Proof.
  intros N D. assert (E : ends_in (dir +++ n) dir n) by (split; auto). unfold path_pop. rewrite (last_piece_ends _ _ _ N E), (trim_right_ends _ _ _ N E).
  destruct N as (N1 & _). apply String.eqb_neq in N1. rewrite N1. rewrite slen_app.
  replace (String.length dir + String.length n - String.length n) with (String.length dir) by lia. rewrite take_app. reflexivity.
Qed.
Lemma pop_beside q p t : is_absolute q = false -> beside q p t -> path_join (path_pop p) q = t /\ path_parent p = Some (path_pop p).
Proof.
  intros A B. assert (Jn : forall dir n, entry_name n -> dir = "" \/ ends_with_sep dir = true -> path_parent (dir +++ n) = Some (path_pop (dir +++ n))).
  { intros dir n N D. unfold path_parent. rewrite (last_piece_ends (dir +++ n) dir n N (conj eq_refl D)). destruct N as (N1 & _). apply String.eqb_neq in N1. rewrite N1. reflexivity. }
  unfold path_join. rewrite A. destruct B as [n N|n N|d n T N].
  - split; [|apply (Jn "" n N); auto]. pose proof (pop_ends "" n N (or_introl eq_refl)) as E. change ("" +++ n) with n in E. rewrite E. reflexivity.
  - split; [|apply (Jn "/" n N); auto]. rewrite (pop_ends "/" n N); auto.
  - assert (D : d +++ "/" = "" \/ ends_with_sep (d +++ "/") = true) by (right; apply ends_with_sep_app).
    rewrite <- !sapp_assoc. split; [|apply (Jn _ n N); auto]. rewrite (pop_ends (d +++ "/") n N D).
    assert (E : trim_right (d +++ "/") = d).
    { unfold trim_right. rewrite srev_app, slen_app. cbn [srev srev_acc String.length append]. rewrite Nat.add_1_r. pose proof (tidy_nonempty d T) as Ne.
      destruct (srev d) as [|b r] eqn:Er. { exfalso. apply Ne. apply srev_inj. exact Er. }
      cbn [trim_right_rev]. rewrite Ascii.eqb_refl, <- Er, trim_tidy; auto. apply srev_srev. }
    rewrite E, (tidy_ends d T). pose proof (tidy_nonempty d T) as Ne. destruct d; [congruence|]. rewrite sapp_assoc. reflexivity.
Qed.
Lemma join_under q d t : is_absolute q = false -> within_dir q d t -> path_join d q = t.
Proof.
  intros A U. unfold path_join. rewrite A. destruct U as [|d|d N E]; [reflexivity| |].
  - pose proof (ends_with_sep_app d sep) as X. cbn in X. change (String sep "") with "/" in X. rewrite X. destruct d; reflexivity.
  - destruct (ends_with_sep d) eqn:Es.
    + exfalso. destruct (last_char d N) as (a & c & ->). rewrite ends_with_sep_app in Es. apply Ascii.eqb_eq in Es. subst c. apply (E a). reflexivity.
    + destruct d; [congruence|reflexivity].
Qed.
Lemma absolute_spec q : is_absolute q = false <-> forall r, q <> "/" +++ r.
Proof.
  destruct q as [|a q]; cbn; [split; [discriminate|reflexivity]|]. destruct (Ascii.eqb_spec a sep) as [->|N]; split; intros H.
  - discriminate H.
  - exfalso. apply (H q). reflexivity.
  - intros r E. injection E as -> _. apply N. reflexivity.
  - reflexivity.
Qed.

(** ** Paths as keys: equality of components *)
Lemma split_on_acc c acc s : exists x l, split_on c "" s = x :: l /\ split_on c acc s = (acc +++ x) :: l.
Proof.
  revert acc. induction s as [|a s IH]; intros acc; cbn [split_on].
  - exists "", []. rewrite sapp_nil_r. auto.
  - destruct (Ascii.eqb a c); [exists "", (split_on c "" s); rewrite sapp_nil_r; auto|].
    destruct (IH (acc +++ String a "")) as (x & l & E & E2). destruct (IH ("" +++ String a "")) as (x' & l' & E' & E3).
    rewrite E in E'. injection E' as <- <-. rewrite E2, E3. exists (("" +++ String a "") +++ x), l. split; auto. f_equal. rewrite sapp_assoc. reflexivity.
Qed.
Lemma pieces_sep a b : pieces (a +++ String sep b) = pieces a ++ pieces b.
Proof.
  unfold pieces. enough (X : forall acc, split_on sep acc (a +++ String sep b) = split_on sep acc a ++ split_on sep "" b) by apply X. induction a as [|x a IH]; intros acc; cbn [String.append split_on].
  - rewrite Ascii.eqb_refl. reflexivity.
  - destruct (Ascii.eqb x sep); [cbn [app]; f_equal|]; apply IH.
Qed.
Lemma pieces_join s : exists x l, pieces s = x :: l /\ s = fold_left (fun a y => a +++ String sep y) l x.
Proof.
  unfold pieces. induction s as [|a s (x & l & E & F)]; cbn [split_on]; [exists "", []; auto|].
  destruct (Ascii.eqb a sep) eqn:Ea.
  - apply Ascii.eqb_eq in Ea. subst a. rewrite E. exists "", (x :: l). split; auto. cbn [fold_left]. rewrite F at 1.
    clear. revert x. change (forall x, String sep (fold_left (fun a y => a +++ String sep y) l x) = fold_left (fun a y => a +++ String sep y) l (String sep x)).
    induction l as [|y l IH]; intros x; cbn [fold_left]; [reflexivity|]. rewrite IH. reflexivity.
  - destruct (split_on_acc sep ("" +++ String a "") s) as (x' & l' & E' & E2). rewrite E in E'. injection E' as <- <-. rewrite E2.
    exists (("" +++ String a "") +++ x), l. split; auto. rewrite F at 1. cbn [String.append]. clear. revert x.
    change (forall x, String a (fold_left (fun a y => a +++ String sep y) l x) = fold_left (fun a y => a +++ String sep y) l (String a x)).
    induction l as [|y l IH]; intros x; cbn [fold_left]; [reflexivity|]. rewrite IH. reflexivity.
Qed.
Lemma components_pieces s : components s = (is_absolute s, match pieces s with [] => [] | f :: r => (if String.eqb f "" then [] else [f]) ++ filter real_piece r end).
Proof.
  unfold components. destruct (is_absolute s) eqn:A; [|destruct (pieces s); reflexivity].
  destruct s as [|a s]; [discriminate A|]. cbn in A. unfold pieces. cbn [split_on]. rewrite A. reflexivity.
Qed.
Lemma absolute_app a b : a <> "" -> is_absolute (a +++ b) = is_absolute a.
Proof. destruct a; [congruence|reflexivity]. Qed.
(** The pieces after the first decide through the real ones only *)
Lemma components_app a b l : a <> "" -> pieces b = pieces a ++ l -> is_absolute b = is_absolute a ->
  components b = (is_absolute a, snd (components a) ++ filter real_piece l).
Proof.
  intros Ne E A. rewrite !components_pieces, E, A. destruct (pieces_join a) as (x & r & Er & _). rewrite Er. cbn [app snd].
  rewrite filter_app, app_assoc. reflexivity.
Qed.
Lemma same_components a b : same_path a b -> components a = components b.
Proof.
  assert (Sep : forall u v, u +++ "/" +++ v = u +++ String sep v) by reflexivity.
  induction 1 as [a|a b _ IH|a b c _ IH1 _ IH2|a b|a b|a Ne|a]; try congruence.
  - destruct a as [|x a]; [reflexivity|].
    rewrite (components_app (String x a) _ ("" :: pieces b)), (components_app (String x a) (_ +++ "/" +++ b) (pieces b)); try discriminate; try reflexivity.
    + apply (pieces_sep (String x a) b).
    + change ("//" +++ b) with (String sep (String sep b)). rewrite pieces_sep. f_equal.
  - destruct a as [|x a]; [reflexivity|].
    rewrite (components_app (String x a) _ ("." :: pieces b)), (components_app (String x a) (_ +++ "/" +++ b) (pieces b)); try discriminate; try reflexivity.
    + apply (pieces_sep (String x a) b).
    + change ("/./" +++ b) with (String sep ("." +++ String sep b)). rewrite pieces_sep. f_equal.
  - rewrite (components_app a (a +++ "/") [""]); auto; [|apply (pieces_sep a "")|apply absolute_app; auto].
    cbn [filter real_piece]. rewrite app_nil_r, components_pieces. reflexivity.
  - destruct a as [|x a]; [reflexivity|].
    rewrite (components_app (String x a) _ ["."]), (components_app (String x a) (_ +++ "/") [""]); try discriminate; try reflexivity.
    + apply (pieces_sep (String x a) "").
    + apply (pieces_sep (String x a) ".").
Qed.
(** Every path is the same as one made of its real pieces *)
Notation glue l x := (fold_left (fun a y => a +++ String sep y) l x).
Lemma same_prefix l : forall x y, same_path x y -> same_path (glue l x) (glue l y).
Proof.
  assert (One : forall x y z, same_path x y -> same_path (x +++ String sep z) (y +++ String sep z)).
  { intros x y z H. induction H as [a|a b _ IH|a b c _ IH1 _ IH2|a b|a b|a Ne|a].
    - apply same_refl.
    - apply same_sym. exact IH.
    - eapply same_trans; eauto.
    - rewrite !sapp_assoc. apply same_slashes.
    - rewrite !sapp_assoc. apply same_dot.
    - rewrite sapp_assoc. apply (same_slashes a z).
    - rewrite !sapp_assoc. cbn [String.append]. eapply same_trans; [apply (same_dot a z)|]. apply same_sym. apply (same_slashes a z). }
  induction l as [|z l IH]; intros x y H; cbn [fold_left]; [exact H|]. apply IH. apply One. exact H.
Qed.
Lemma real_piece_not z : real_piece z = false -> z = "" \/ z = ".".
Proof. unfold real_piece. rewrite negb_false_iff, orb_true_iff, !String.eqb_eq. auto. Qed.
Lemma same_real l : forall x, x <> "" -> same_path (glue l x) (glue (filter real_piece l) x).
Proof.
  induction l as [|z l IH]; intros x Ne; cbn [fold_left filter]; [apply same_refl|].
  assert (Nz : x +++ String sep z <> "") by (destruct x; discriminate).
  destruct (real_piece z) eqn:R; cbn [fold_left]; [apply IH; exact Nz|].
  eapply same_trans; [|apply IH; exact Ne]. apply same_prefix. apply real_piece_not in R. destruct R as [-> | ->].
  - apply (same_end_slash x Ne).
  - eapply same_trans; [apply (same_end_dot x)|apply (same_end_slash x Ne)].
Qed.
(** ... from the root *)
Definition rooted (l : list string) : string := match l with [] => "/" | x :: r => glue r (String sep x) end.
Lemma same_rooted x l : same_path (glue l (String sep x)) (rooted (filter real_piece (x :: l))).
Proof.
  revert x. induction l as [|z l IH]; intros x; cbn [fold_left filter]; destruct (real_piece x) eqn:R.
  - apply same_refl.
  - apply real_piece_not in R. destruct R as [-> | ->]; [apply same_refl|]. apply (same_end_dot "").
  - cbn [rooted]. apply (same_real (z :: l) (String sep x)). discriminate.
  - eapply same_trans; [|apply (IH z)]. apply same_prefix. apply real_piece_not in R. destruct R as [-> | ->]; cbn [String.append].
    + apply (same_slashes "" z).
    + apply (same_dot "" z).
Qed.
Definition respelled (c : bool * list string) : string :=
  if fst c then rooted (snd c) else match snd c with [] => "" | x :: r => glue r x end.
Lemma same_respelled s : same_path s (respelled (components s)).
Proof.
  destruct (pieces_join s) as (x & l & E & F). rewrite components_pieces, E. unfold respelled. cbn [fst snd].
  destruct (String.eqb x "") eqn:Ex.
  - apply String.eqb_eq in Ex. subst x. destruct l as [|z l]; [rewrite F; apply same_refl|].
    cbn [fold_left String.append] in F.
    assert (A : is_absolute s = true).
    { rewrite F. clear. enough (X : forall y, is_absolute y = true -> is_absolute (glue l y) = true) by (apply X; reflexivity).
      induction l as [|w l IH]; intros y Hy; cbn [fold_left]; [exact Hy|]. apply IH. destruct y; [discriminate Hy|exact Hy]. }
    rewrite A. cbn [app]. rewrite F at 1. apply same_rooted.
  - apply String.eqb_neq in Ex.
    assert (A : is_absolute s = false).
    { destruct s as [|a s]; [reflexivity|]. cbn. destruct (Ascii.eqb a sep) eqn:Ea; [|reflexivity].
      unfold pieces in E. cbn [split_on] in E. rewrite Ea in E. injection E as <- _. congruence. }
    rewrite A. cbn [app]. rewrite F at 1. apply same_real. exact Ex.
Qed.
Lemma list_eqb_eq a b : list_eqb a b = true <-> a = b.
Proof.
  revert b; induction a as [|x a IH]; intros [|y b]; cbn; try (split; congruence).
  rewrite andb_true_iff, String.eqb_eq, IH. split; [intros [-> ->]|intros H; inversion H]; auto.
Qed.
Lemma path_eqb_eq a b : path_eqb a b = true <-> components a = components b.
Proof.
  unfold path_eqb. rewrite andb_true_iff, list_eqb_eq, Bool.eqb_true_iff.
  destruct (components a), (components b). cbn. split; [intros [-> ->]|intros H; inversion H]; auto.
Qed.
Lemma path_eqb_same a b : path_eqb a b = true <-> same_path a b.
Proof.
  rewrite path_eqb_eq. split; [|apply same_components]. intros E. eapply same_trans; [apply same_respelled|]. rewrite E. apply same_sym. apply same_respelled.
Qed.
