(** C01: list and non-null wrappers. *)
From Verif Require Import WrapFacts RequestFacts PromiseFacts WideFacts.

(** Full statement (false of the code): for every valid type reference [g] the text written for a
    property of that type accepts exactly the values GraphQL allows. *)
Definition wrappers_faithful (kind : string) (g : gtype) : Prop :=
  exists ft, ftype_of_json (json_of kind g) = Ok ft /\ ft_name ft = gbase g /\
    forall flat, is_name flat ->
      exists e, reads (prop_type_def (ft_rest ft) (ft_mod ft) flat) e /\
        forall env, ~ env flat VNull ->
          forall v, denote env e v <-> gvalues (fun _ => env flat) g v.

(** Proved: all nestings of any depth, except those in which a nullable list has non-null lists as
    elements. *)
Theorem C01_wrappers_partial : forall kind g,
  In kind named_kinds -> valid_gtype g = true -> nullable_list_of_nonnull_lists false g = false ->
  wrappers_faithful kind g.
Proof. exact wrappers_ok. Qed.
Print Assumptions C01_wrappers_partial.

(** The same when null is one of the values of the inner type, as for scalars written as any: a nullable type has null and the
    values of the type in it, a non-null type has these only.  (If the inner type does not have null these are the values of the
    GraphQL type: [C01_wide_is].) *)
Theorem C01_wide_partial : forall kind g,
  In kind named_kinds -> valid_gtype g = true -> nullable_list_of_nonnull_lists false g = false ->
  exists ft, ftype_of_json (json_of kind g) = Ok ft /\ ft_name ft = gbase g /\
    forall flat, is_name flat ->
      exists e, reads (prop_type_def (ft_rest ft) (ft_mod ft) flat) e /\
        forall env v, denote env e v <-> wide_values (env flat) g v.
Proof.
  intros kind g K V L. destruct (wrappers_ok kind g K V L) as (ft & E & N & _). exists ft. split; [exact E|]. split; [exact N|].
  intros flat Hf. exists (ptd_expr (ft_rest ft) (ft_mod ft) (XName flat)). split.
  - change flat with (print_texpr (XName flat)) at 1. rewrite <- print_ptd. apply reads_print. apply wf_ptd; cbn; auto.
  - intros env v. rewrite denote_ptd. destruct (known_kind kind (gbase g) K) as [d Hd].
    destruct (builder_any (env flat) kind g d Hd V mb_new) as (ft' & E' & _ & Hv); [reflexivity|exact L|].
    unfold ftype_of_json in E. rewrite E in E'. injection E' as <-. rewrite (Hv v). cbn [sems fold_right mb_new mb_higher mb_concrete around].
    apply (proj2 (loose_wide (env flat) g)).
Qed.
Print Assumptions C01_wide_partial.
Theorem C01_wide_is : forall inner g, ~ inner VNull ->
  forall v, wide_values inner g v <-> gvalues (fun _ => inner) g v.
Proof. intros inner g N v. apply wide_gvalues; auto. Qed.
Print Assumptions C01_wide_is.

(** The excluded nestings are always translated wrongly: some value the server may send is rejected,
    whatever the inner type is (as long as it is not itself a list type). *)
Theorem C01_wrappers_exact : forall kind g,
  In kind named_kinds -> valid_gtype g = true -> nullable_list_of_nonnull_lists false g = true ->
  exists ft, ftype_of_json (json_of kind g) = Ok ft /\
    forall flat, is_name flat ->
      exists e, reads (prop_type_def (ft_rest ft) (ft_mod ft) flat) e /\
        forall env, (forall n l, ~ env n (VList l)) ->
          exists v, gvalues (fun _ => env flat) g v /\ ~ denote env e v.
Proof. exact wrappers_exact. Qed.
Print Assumptions C01_wrappers_exact.

(** Hence the full statement fails, e.g. for the type [[[Int!]!]] *)
Theorem C01_wrappers_refuted :
  exists kind g, In kind named_kinds /\ valid_gtype g = true /\ ~ wrappers_faithful kind g.
Proof.
  exists "SCALAR", (GList (GNonNull (GList (GNonNull (GNamed "Int"))))).
  split; [cbn; auto|]. split; [reflexivity|].
  intros (ft & E & _ & H).
  destruct (wrappers_exact "SCALAR" (GList (GNonNull (GList (GNonNull (GNamed "Int"))))))
    as (ft' & E' & H'); [cbn; auto | reflexivity | reflexivity |].
  rewrite E in E'. inversion E'; subst ft'.
  assert (Hn : is_name "number") by (apply is_nameb_ok; reflexivity).
  destruct (H _ Hn) as (e & R & D). destruct (H' _ Hn) as (e' & R' & D').
  assert (e = e') by (eapply reads_functional; eauto). subst e'.
  destruct (D' (fun _ v => exists r, v = VNum r)) as (v & G & N).
  { intros n l [r Hr]. discriminate. }
  apply N, D; auto. intros [r Hr]. discriminate.
Qed.
Print Assumptions C01_wrappers_refuted.

(** Non-vacuity of the wide form: for [[Json]!] with Json written as any, "(any | null)[]" takes the list of null and refuses null *)
Example C01_wide_nonvacuous : let g := GNonNull (GList (GNamed "Json")) in
  nullable_list_of_nonnull_lists false g = false /\ wide_values (fun _ => True) g (VList [VNull]) /\ ~ wide_values (fun _ => True) g VNull.
Proof.
  cbn zeta. split; [reflexivity|]. split; [exists [VNull]; split; [reflexivity|]; constructor; [left; reflexivity|constructor]|].
  intros (l & E & _). discriminate E.
Qed.

(** Non-vacuity: [[[User!]]!], four wrappers deep *)
Example C01_nonvacuous :
  let g := GNonNull (GList (GList (GNonNull (GNamed "User")))) in
  In "OBJECT" named_kinds /\ valid_gtype g = true /\ nullable_list_of_nonnull_lists false g = false /\
  is_name "Q_users" /\
  (exists ft, ftype_of_json (json_of "OBJECT" g) = Ok ft /\
              prop_type_def (ft_rest ft) (ft_mod ft) "Q_users" = "((Q_users[] | null) | null)[]").
Proof.
  cbn zeta. split; [cbn; auto|]. split; [reflexivity|]. split; [reflexivity|].
  split; [apply is_nameb_ok; reflexivity|]. eexists. split; reflexivity.
Qed.
