(** The scan of a directory tree: paths of positions are distinct, which entries are sources. *)
From Verif Require Export PathFacts TreeFacts.
From Coq Require Import Lia.

Definition path_of (w : work) : string := match w with WFile p => p | WDir p => p end.

(** Directory listings as an operating system gives them: distinct entry names *)
Definition names_ok (ls : listing) : Prop :=
  forall d es l, ls d = Ok es -> readable es = Some l ->
    Forall entry_name (List.map fst l) /\ NoDup (List.map fst l).

(** Where the last component starts *)
Definition dir_prefix (d : string) : string :=
  match d with EmptyString => "" | _ => if ends_with_sep d then d else d +++ "/" end.
Lemma path_join_prefix d n : entry_name n -> path_join d n = dir_prefix d +++ n.
Proof.
  intros (N1 & _ & _ & N4). unfold path_join, is_absolute, dir_prefix. destruct n as [|a n]; [congruence|].
  destruct (Ascii.eqb a sep) eqn:E. { apply Ascii.eqb_eq in E. exfalso. apply N4. cbn. auto. }
  destruct d as [|x d]; [reflexivity|]. destruct (ends_with_sep (String x d)); [reflexivity|].
  rewrite sapp_assoc. reflexivity.
Qed.
Lemma dir_prefix_ends d : dir_prefix d = "" \/ ends_with_sep (dir_prefix d) = true.
Proof.
  destruct d as [|x d]; [left; reflexivity|right]. unfold dir_prefix.
  destruct (ends_with_sep (String x d)) eqn:E; [auto|]. apply (ends_with_sep_app (String x d)).
Qed.
Lemma join_ends d n : entry_name n -> ends_in (path_join d n) (dir_prefix d) n.
Proof. intros N. split; [apply path_join_prefix; auto|apply dir_prefix_ends]. Qed.
Lemma join_inj d1 d2 n1 n2 : entry_name n1 -> entry_name n2 -> path_join d1 n1 = path_join d2 n2 ->
  n1 = n2 /\ dir_prefix d1 = dir_prefix d2.
Proof.
  intros N1 N2 E. pose proof (join_ends d1 n1 N1) as E1. pose proof (join_ends d2 n2 N2) as E2.
  assert (n1 = n2) as <-.
  { rewrite <- (last_piece_ends _ _ _ N1 E1), <- (last_piece_ends _ _ _ N2 E2). congruence. }
  split; auto. destruct E1 as [E1 _], E2 as [E2 _]. rewrite E1, E2 in E. eapply sapp_inj_r; eauto.
Qed.
Lemma dir_prefix_len d : String.length d <= String.length (dir_prefix d) <= S (String.length d).
Proof.
  destruct d as [|x d]; [cbn; lia|]. unfold dir_prefix. destruct (ends_with_sep (String x d)); [lia|].
  rewrite slen_app. cbn. lia.
Qed.

Lemma entry_work_path d x w : In w (entry_work d x) -> path_of w = path_join d (fst x).
Proof.
  unfold entry_work. destruct (snd x).
  - intros [<-|[]]. reflexivity.
  - destruct (path_extension _) as [ext|]; [|intros []]. destruct (String.eqb ext "graphql"); [|intros []].
    intros [<-|[]]. reflexivity.
  - intros [].
Qed.
Lemma entry_work_short d x : List.length (entry_work d x) <= 1.
Proof.
  unfold entry_work. destruct (snd x); cbn; auto.
  destruct (path_extension _) as [ext|]; cbn; auto. destruct (String.eqb ext "graphql"); cbn; auto.
Qed.

Section Scan.
  Variable ls : listing.
  Variable root : string.
  Hypothesis N_ok : names_ok ls.

  Lemma kid_entry x i y : nth_error (dir_kids ls x) i = Some y ->
    exists d n k, x = WDir d /\ entry_name n /\ path_of y = path_join d n /\ In y (entry_work d (n, k)).
  Proof.
    intros E. destruct x as [p|d]; cbn [dir_kids] in E; [destruct i; discriminate|].
    destruct (ls d) as [es|] eqn:El; [|destruct i; discriminate].
    destruct (readable es) as [l|] eqn:Er; [|destruct i; discriminate].
    apply nth_error_In in E. apply in_flat_map in E. destruct E as ((n & k) & I & J).
    exists d, n, k. split; auto. split.
    - destruct (N_ok d es l El Er) as [F _]. rewrite Forall_forall in F. apply F. apply (in_map fst) in I. auto.
    - split; auto. apply (entry_work_path d (n, k)). auto.
  Qed.

  Lemma kids_nodup x : NoDup (List.map path_of (dir_kids ls x)).
  Proof.
    destruct x as [p|d]; cbn [dir_kids]; [constructor|].
    destruct (ls d) as [es|] eqn:El; [|constructor].
    destruct (readable es) as [l|] eqn:Er; [|constructor].
    destruct (N_ok d es l El Er) as [F N]. clear El Er.
    induction l as [|[n k] l IH]; cbn [flat_map List.map]; [constructor|].
    cbn in F, N. inversion F; subst. inversion N; subst.
    rewrite map_app. pose proof (entry_work_path d (n, k)) as Ep. pose proof (entry_work_short d (n, k)) as Es.
    destruct (entry_work d (n, k)) as [|w [|]]; cbn in Es; try lia; cbn [List.map app]; auto.
    constructor; auto. intros I. apply in_map_iff in I. destruct I as (w' & E & I).
    apply in_flat_map in I. destruct I as ((n' & k') & I & J). apply entry_work_path in J. cbn [fst] in J.
    rewrite (Ep w) in E by (left; auto). cbn [fst] in E. rewrite J in E.
    assert (In n' (List.map fst l)) by (apply (in_map fst) in I; auto).
    rewrite Forall_forall in H2. apply join_inj in E; auto. destruct E as [-> _]. contradiction.
  Qed.

  Lemma tree_fun p x y : in_tree ls root p x -> in_tree ls root p y -> x = y.
  Proof.
    intros H. revert y. induction H as [|p x i y H IH E]; intros z Hz; inversion Hz; subst.
    - auto.
    - destruct p; discriminate.
    - destruct p; discriminate.
    - apply app_inj_tail in H0. destruct H0 as [-> ->]. rewrite (IH x0) in E by auto. congruence.
  Qed.

  Lemma tree_len p x : in_tree ls root p x ->
    String.length root <= String.length (path_of x) /\ (p <> [] -> String.length root < String.length (path_of x)).
  Proof.
    intros H. induction H as [|p x i y H IH E].
    - cbn. split; auto. congruence.
    - destruct (kid_entry x i y E) as (d & n & k & -> & Nn & Ey & _). cbn [path_of] in IH.
      rewrite Ey, path_join_prefix, slen_app by auto. pose proof (dir_prefix_len d).
      destruct Nn as (Nn & _). destruct n; [congruence|]. cbn [String.length]. lia.
  Qed.

  (** A directory below the root does not end in a separator *)
  Lemma tree_noslash p d : in_tree ls root p (WDir d) -> p <> [] -> ends_with_sep d = false.
  Proof.
    intros H Np. inversion H; subst; [congruence|].
    destruct (kid_entry _ _ _ H1) as (d' & n & k & -> & Nn & Ey & _). cbn [path_of] in Ey. subst d.
    rewrite path_join_prefix by auto. destruct Nn as (N1 & _ & _ & N4).
    destruct (last_char n N1) as (a & c & ->). rewrite <- sapp_assoc, ends_with_sep_app.
    destruct (Ascii.eqb c sep) eqn:Ec; auto. apply Ascii.eqb_eq in Ec. subst. exfalso. apply N4.
    apply has_char_app. right. cbn. auto.
  Qed.

  Lemma prefix_inj p q d1 d2 : in_tree ls root p (WDir d1) -> in_tree ls root q (WDir d2) ->
    dir_prefix d1 = dir_prefix d2 -> d1 = d2.
  Proof.
    intros H1 H2 E.
    assert (X : forall p q d1 d2, in_tree ls root p (WDir d1) -> in_tree ls root q (WDir d2) ->
      dir_prefix d1 = dir_prefix d2 -> ends_with_sep d1 = true -> ends_with_sep d2 = false -> False).
    { clear - N_ok. intros p q d1 d2 H1 H2 E S1 S2.
      assert (p = []) as ->.
      { destruct p as [|i p]; auto. assert (ends_with_sep d1 = false) by (eapply tree_noslash; eauto; discriminate). congruence. }
      assert (E1 : root = d1) by (inversion H1 as [E0|? ? ? ? ? ? E0]; [congruence|destruct p; discriminate]).
      destruct d1 as [|x d1]; [discriminate|]. unfold dir_prefix in E. rewrite S1 in E.
      destruct (tree_len _ _ H2) as [L _]. cbn [path_of] in L. rewrite E1 in L.
      destruct d2 as [|y d2]; [discriminate|]. rewrite S2 in E.
      apply (f_equal String.length) in E. rewrite slen_app in E. cbn in E, L. lia. }
    destruct (ends_with_sep d1) eqn:S1, (ends_with_sep d2) eqn:S2.
    - destruct d1, d2; try discriminate. unfold dir_prefix in E. rewrite S1, S2 in E. auto.
    - exfalso. exact (X p q d1 d2 H1 H2 E S1 S2).
    - exfalso. symmetry in E. exact (X q p d2 d1 H2 H1 E S2 S1).
    - unfold dir_prefix in E. destruct d1 as [|x d1], d2 as [|y d2]; auto.
      + rewrite S2 in E. destruct d2; discriminate.
      + rewrite S1 in E. destruct d1; discriminate.
      + rewrite S1, S2 in E. eapply sapp_inj_r; eauto.
  Qed.

  Lemma tree_paths p q x y : in_tree ls root p x -> in_tree ls root q y -> path_of x = path_of y -> p = q.
  Proof.
    intros H. revert q y. induction H as [|p x i x' H IH E]; intros q y Hy Ep.
    - destruct q as [|j q]; auto. exfalso. destruct (tree_len _ _ Hy) as [_ L]. cbn [path_of] in Ep.
      rewrite <- Ep in L. specialize (L ltac:(discriminate)). lia.
    - inversion Hy; subst.
      + exfalso. assert (Hx : in_tree ls root (p ++ [i]) x') by (econstructor; eauto).
        destruct (tree_len _ _ Hx) as [_ L]. rewrite Ep in L. cbn [path_of] in L.
        specialize (L ltac:(destruct p; discriminate)). lia.
      + destruct (kid_entry _ _ _ E) as (d1 & n1 & k1 & -> & N1 & E1 & _).
        destruct (kid_entry _ _ _ H1) as (d2 & n2 & k2 & -> & N2 & E2 & _).
        rewrite E1, E2 in Ep. apply join_inj in Ep; auto. destruct Ep as [-> Ed].
        assert (d1 = d2) as <- by (eapply prefix_inj; eauto).
        assert (p = p0) as <- by (eapply IH; eauto).
        f_equal. f_equal.
        pose proof (kids_nodup (WDir d1)) as Nd.
        apply (map_nth_error path_of) in E, H1. rewrite E1 in E. rewrite E2 in H1.
        eapply NoDup_nth_error; eauto; [|congruence].
        apply nth_error_Some. congruence.
  Qed.

  (** A source file of the tree *)
  Lemma tree_file p path : in_tree ls root p (WFile path) ->
    exists d n, path = path_join d n /\ entry_name n /\ source_name n.
  Proof.
    intros H. inversion H; subst. destruct (kid_entry _ _ _ H1) as (d & n & k & -> & Nn & Ey & I).
    exists d, n. cbn [path_of] in Ey. split; auto. split; auto.
    unfold entry_work in I. cbn [fst snd] in I. destruct k.
    - destruct I as [I|[]]. discriminate.
    - destruct (path_extension (path_join d n)) as [ext|] eqn:Ex; [|destruct I].
      destruct (String.eqb ext "graphql") eqn:Eg; [|destruct I]. apply String.eqb_eq in Eg. subst ext.
      apply (extension_graphql _ _ _ Nn (join_ends d n Nn)). auto.
    - destruct I.
  Qed.

  Lemma output_path p path : in_tree ls root p (WFile path) -> with_extension path "graphql.d.ts" = path +++ ".d.ts".
  Proof.
    intros H. destruct (tree_file p path H) as (d & n & -> & Nn & Sn).
    eapply with_extension_source; eauto. apply join_ends. auto.
  Qed.

  Lemma outputs_distinct p q x y : in_tree ls root p (WFile x) -> in_tree ls root q (WFile y) ->
    with_extension x "graphql.d.ts" = with_extension y "graphql.d.ts" -> p = q.
  Proof.
    intros Hx Hy E. rewrite (output_path p x Hx), (output_path q y Hy) in E. apply sapp_inj_r in E.
    eapply tree_paths; eauto.
  Qed.

  Lemma output_ignored p path d n k : in_tree ls root p (WFile path) -> entry_name n ->
    path_join d n = with_extension path "graphql.d.ts" -> k <> EkDir -> entry_work d (n, k) = [].
  Proof.
    intros H Nn E Nk. rewrite (output_path p path H) in E.
    destruct (tree_file p path H) as (d' & n' & Ep & Nn' & Sn').
    unfold entry_work. cbn [fst snd]. destruct k; [congruence| |auto].
    destruct (path_extension (path_join d n)) as [ext|] eqn:Ex; auto.
    destruct (String.eqb ext "graphql") eqn:Eg; auto. apply String.eqb_eq in Eg. subst ext. exfalso.
    apply (extension_graphql _ _ _ Nn (join_ends d n Nn)) in Ex.
    assert (Nn2 : entry_name (n' +++ ".d.ts")).
    { destruct Nn' as (A & B & C & D). destruct n' as [|a n']; [congruence|]. repeat split; try discriminate.
      - destruct n'; discriminate.
      - intros Q. inversion Q. destruct n' as [|b [|? ?]]; discriminate.
      - rewrite has_char_app. intros [Q|Q]; [auto|]. cbn in Q. intuition discriminate. }
    rewrite Ep in E. rewrite (path_join_prefix d' n') in E by auto. rewrite sapp_assoc in E.
    rewrite <- (path_join_prefix d' (n' +++ ".d.ts")) in E by auto. apply join_inj in E; auto.
    destruct E as [-> _]. apply (output_not_source n'). auto.
  Qed.
End Scan.
