(** C13: the default export. *)
From Verif Require Import Written SelWorlds.

(** Document node type, name and type arguments GraphQL calls for *)
Definition node_of (d : definition) : string :=
  match d with
  | DOp (OpSelectionSet _ _) | DOp (OpNamed KQuery _ _ _ _ _) => "QueryDocumentNode"
  | DOp (OpNamed KMutation _ _ _ _ _) => "MutationDocumentNode"
  | DOp (OpNamed KSubscription _ _ _ _ _) => "SubscriptionDocumentNode"
  | DFrag _ => "FragmentDocumentNode"
  end.
Definition own_or_default_name (d : definition) : string :=
  match d with
  | DOp (OpSelectionSet _ _) => "Query"
  | DOp (OpNamed _ _ (Some n) _ _ _) => n
  | DOp (OpNamed KQuery _ None _ _ _) => "Query"
  | DOp (OpNamed KMutation _ None _ _ _) => "Mutation"
  | DOp (OpNamed KSubscription _ None _ _ _) => "Subscription"
  | DFrag f => fr_name f
  end.
Definition type_args (d : definition) : list string :=
  let n := own_or_default_name d in
  match d with
  | DFrag _ => [n]
  | DOp _ => [n; match doc_vars d with [] => "never" | _ => n +++ "Variables" end]
  end.

(** The exported constant has type node<args>, and node is imported from the configured module *)
Theorem C13_partial : forall fuel cx c o d ws co,
  order_ok (cx_order cx) -> order_ok o -> consistent (cx_schema cx) ->
  document_file fuel cx c o d ws co -> is_subscription d = false ->
  exists m, written_as cx c d co m /\ tf_node m = node_of d /\ tf_args m = type_args d /\
    tf_node_from m = cc_docnode_module c.
Proof.
  intros fuel cx c o d ws co O O' Co H Su.
  destruct (document_inv _ _ _ _ _ _ _ O O' Co H) as (P & p & l & op & ds & us & vds & vus & R & C & Hc & En & Ek & Ev & Sh & Rn & Rv & Eg & Et).
  exists (file_of c op (ds ++ vds) (co_globals co)). split; auto. cbn [file_of tf_node tf_node_from tf_args].
  unfold node_args, vars_arg. rewrite En, Ek.
  destruct d as [[? ?|k p1 n vars dirs sels]|f]; [discriminate| |split; [reflexivity|split; reflexivity]].
  destruct k; [| |discriminate]; (split; [reflexivity|]); (split; [|reflexivity]);
    unfold try_build_variable_ir in Ev; cbn [doc_vars] in Ev; cbn [def_kind op_type_name];
    (destruct vars as [|v vars];
     [injection Ev as Ev; rewrite <- Ev; destruct n; reflexivity
     |destruct (collect_res _); inversion Ev as [Ev']; destruct n; reflexivity]).
Qed.
Print Assumptions C13_partial.

(** A subscription's arguments are right but its node type is that of a query *)
Theorem C13_subscription : forall fuel cx c o d ws co,
  order_ok (cx_order cx) -> order_ok o -> consistent (cx_schema cx) ->
  document_file fuel cx c o d ws co -> is_subscription d = true ->
  exists m, written_as cx c d co m /\ tf_node m = "QueryDocumentNode" /\ tf_args m = type_args d /\
    tf_node_from m = cc_docnode_module c.
Proof.
  intros fuel cx c o d ws co O O' Co H Su.
  destruct (document_inv _ _ _ _ _ _ _ O O' Co H) as (P & p & l & op & ds & us & vds & vus & R & C & Hc & En & Ek & Ev & Sh & Rn & Rv & Eg & Et).
  exists (file_of c op (ds ++ vds) (co_globals co)). split; auto. cbn [file_of tf_node tf_node_from tf_args].
  unfold node_args, vars_arg. rewrite En, Ek.
  destruct d as [[? ?|k p1 n vars dirs sels]|f]; try discriminate. destruct k; try discriminate.
  split; [reflexivity|]. split; [|reflexivity].
  unfold try_build_variable_ir in Ev; cbn [doc_vars] in Ev; cbn [def_kind op_type_name].
  destruct vars as [|v vars];
     [injection Ev as Ev; rewrite <- Ev; destruct n; reflexivity
     |destruct (collect_res _); inversion Ev as [Ev']; destruct n; reflexivity].
Qed.
Print Assumptions C13_subscription.

Fixpoint absent (w t : string) : bool :=
  negb (String.prefix w t) && match t with EmptyString => true | String _ t' => absent w t' end.
Lemma prefix_app w suf : String.prefix w (w +++ suf) = true.
Proof. induction w as [|a w IH]; [destruct suf; reflexivity|]. cbn. destruct (ascii_dec a a); [exact IH|congruence]. Qed.
Lemma absent_ok w t : absent w t = true -> forall pre suf, t <> pre +++ w +++ suf.
Proof.
  revert t. assert (X : forall pre suf, absent w (pre +++ w +++ suf) = false).
  { induction pre as [|b pre IH]; intros suf.
    - cbn [append]. pose proof (prefix_app w suf) as E. destruct (w +++ suf); cbn [absent]; rewrite E; reflexivity.
    - change (absent w (String b (pre +++ w +++ suf)) = false). cbn [absent]. rewrite IH. apply andb_false_r. }
  intros t E pre suf ->. rewrite X in E. discriminate.
Qed.

Theorem C13_refuted : exists fuel cx c o d ws co,
  order_ok (cx_order cx) /\ order_ok o /\ consistent (cx_schema cx) /\ document_file fuel cx c o d ws co /\
  node_of d = "SubscriptionDocumentNode" /\
  forall pre suf, co_contents co <> pre +++ "SubscriptionDocumentNode" +++ suf.
Proof.
  exists 10, (zoo_cx false []), (cconfig_of (merge_config 4 no_args config_default)), plain_order,
    (DOp (OpNamed KSubscription p0 None [] [] [leaf 2 "color"])). eexists _, _.
  split; [apply plain_ok|]. split; [apply plain_ok|]. split; [apply zoo_consistent|].
  split; [eexists; split; vm_compute; reflexivity|]. split; [reflexivity|].
  apply absent_ok. vm_compute. reflexivity.
Qed.
Print Assumptions C13_refuted.

(** Non-vacuity *)
Example C13_nonvacuous : exists ws co m,
  document_file 10 (zoo_cx false []) (cconfig_of (merge_config 4 no_args config_default)) plain_order
    (DOp (OpNamed KMutation p0 None [] [] [node 2 "rename" [leaf 3 "name"]])) ws co /\
  reads_as co m /\ tf_node m = "MutationDocumentNode" /\ tf_args m = ["Mutation"; "never"].
Proof.
  eexists _, _. eexists {| tf_node := _; tf_node_from := "@notarize/qlc-cli/typed-documentnode"; tf_globals := []; tf_globals_from := "";
     tf_decls := [DObj "Mutation_rename" [{| m_comment := ""; m_readonly := true; m_name := "name"; m_optional := false; m_type := XName "string" |}];
                  DObj "Mutation" [{| m_comment := ""; m_readonly := true; m_name := "rename"; m_optional := false; m_type := XName "Mutation_rename" |}]];
     tf_args := _ |}.
  split; [eexists; split; vm_compute; reflexivity|]. split; [|split; reflexivity]. apply (reads_by 2000); vm_compute; reflexivity.
Qed.
