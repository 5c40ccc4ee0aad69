(** C61: DataOf and VariablesOf extract the types of a document node. *)
From Verif Require Import Nodes.

(** For queries they do *)
Theorem C61_partial : forall ty (basic never D V : ty),
  data_of ty basic never (node ty NQuery {| fn_var := Some V; fn_data := D |}) = D /\
  variables_of ty basic never (node ty NQuery {| fn_var := Some V; fn_data := D |}) = V.
Proof. intros. split; reflexivity. Qed.
Print Assumptions C61_partial.

(** For everything else exactly if the type is BasicObject *)
Theorem C61_exact : forall ty (basic never D V : ty) k, k <> NQuery ->
  (data_of ty basic never (node ty k {| fn_var := Some V; fn_data := D |}) = D <-> D = basic) /\
  (variables_of ty basic never (node ty k {| fn_var := Some V; fn_data := D |}) = V <-> V = basic).
Proof. intros ty basic never D V [] N; try congruence; cbn; split; split; congruence. Qed.
Print Assumptions C61_exact.

(** The example in the file's own comment, a mutation *)
Inductive example_ty : Type := TBasic | TNever | TData | TVars.
Theorem C61_refuted : forall k, k <> NQuery ->
  data_of example_ty TBasic TNever (node example_ty k {| fn_var := Some TVars; fn_data := TData |}) = TBasic /\
  variables_of example_ty TBasic TNever (node example_ty k {| fn_var := Some TVars; fn_data := TData |}) = TBasic.
Proof. intros [] N; try congruence; split; reflexivity. Qed.
Print Assumptions C61_refuted.
(** Types that are not document nodes have neither *)
Example C61_never : data_of example_ty TBasic TNever {| ob_document := false; ob_prop := fun _ => None |} = TNever.
Proof. reflexivity. Qed.
