(** C28: output paths are distinct and never rescanned. *)
From Verif Require Import ScanFacts Worlds.

(** A regular file entry is picked up as a source exactly when it is called STEM.graphql, STEM
    non-empty *)
Theorem C28_sources : forall dir n, entry_name n ->
  entry_work dir (n, EkFile) = [WFile (path_join dir n)] /\ source_name n \/
  entry_work dir (n, EkFile) = [] /\ ~ source_name n.
Proof.
  intros dir n N. pose proof (extension_graphql _ _ _ N (join_ends dir n N)) as E.
  unfold entry_work. cbn [fst snd]. destruct (path_extension (path_join dir n)) as [ext|].
  - destruct (String.eqb ext "graphql") eqn:Eg.
    + left. split; auto. apply E. apply String.eqb_eq in Eg. congruence.
    + right. split; auto. intros S. apply E in S. inversion S; subst. discriminate.
  - right. split; auto. intros S. apply E in S. discriminate.
Qed.
Print Assumptions C28_sources.

(** X.graphql is compiled to X.graphql.d.ts next to it; outputs of different positions of the tree
    differ; an output is not a source, in whatever directory it is listed *)
Theorem C28_outputs : forall ls root p path,
  names_ok ls -> in_tree ls root p (WFile path) ->
  let out := with_extension path "graphql.d.ts" in
  (exists dir n, entry_name n /\ source_name n /\ path = path_join dir n) /\
  out = path +++ ".d.ts" /\
  (forall q path', in_tree ls root q (WFile path') -> with_extension path' "graphql.d.ts" = out -> q = p) /\
  (forall dir n k, entry_name n -> path_join dir n = out -> k <> EkDir -> entry_work dir (n, k) = []).
Proof.
  intros ls root p path N H. split; [|split; [|split]].
  - destruct (tree_file ls root N p path H) as (d & n & E & Nn & Sn). eauto.
  - exact (output_path ls root N p path H).
  - intros q path' H' E. exact (outputs_distinct ls root N q p path' path H' H E).
  - intros dir n k Nn E Nk. exact (output_ignored ls root N p path dir n k H Nn E Nk).
Qed.
Print Assumptions C28_outputs.

(** Non-vacuity: the tree ./d/x.graphql *)
Example C28_nonvacuous : names_ok deep_listing /\ in_tree deep_listing "." [0; 0] (WFile "./d/x.graphql").
Proof.
  split.
  - intros d es l. unfold deep_listing. destruct (String.eqb d "."); [|destruct (String.eqb d "./d"); [|discriminate]].
    + intros H; inversion H; subst; clear H. cbn. intros H; inversion H; subst; clear H. cbn.
      split; [|repeat constructor; intros []]. constructor; [|constructor]. repeat split; try discriminate.
      cbn. intuition discriminate.
    + intros H; inversion H; subst; clear H. cbn. intros H; inversion H; subst; clear H. cbn.
      split; [|repeat constructor; intros []]. constructor; [|constructor]. repeat split; try discriminate.
      cbn. intuition discriminate.
  - apply (node_child _ _ [0] (WDir "./d") 0); [|reflexivity].
    apply (node_child _ _ [] (WDir ".") 0); [constructor|reflexivity].
Qed.
