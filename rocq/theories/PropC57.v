(** C57: the introspection result is read for what it says. *)
From Verif Require Import SameFacts SpecFs.

(** Decoding yields [js] exactly when the JSON value says [js] *)
Theorem C57_exact : forall j js, d_schema j = Some js <-> says_schema j js.
Proof. exact schema_decodes. Qed.
Print Assumptions C57_exact.

(** Every list of types is said by its standard form, so that theorems about decoded introspection results
    are about all standard introspection results *)
Theorem C57_standard : forall js, says_schema (w_schema js) js /\ forall js', says_schema (w_schema js) js' -> js' = js.
Proof.
  intros js. split; [apply schema_decodes, w_schema_d|]. intros js' H. apply schema_decodes in H. rewrite w_schema_d in H. congruence.
Qed.
Print Assumptions C57_standard.

(** The order of entries and entries under keys that qlc does not know never matter, at any depth *)
Theorem C57_same : forall j j' js, same_json j j' -> (says_schema j js <-> says_schema j' js).
Proof. intros j j' js S. pose proof (schema_respects _ _ S) as E.
  split; intros H; apply schema_decodes; apply schema_decodes in H; congruence. Qed.
Print Assumptions C57_same.

(** A schema file that says nothing: an error, exit code 1, nothing is written *)
Theorem C57_rejected : forall fuel wo a sched cf e j,
  load_config (ca_config_file a) (wo_config wo) = Ok cf ->
  wo_schema wo (rc_schema_path (merge_config (wo_ncpus wo) a cf)) = schema_from e j ->
  (forall js, ~ says_schema j js) ->
  exists out, qlc fuel wo a sched = Exited 1 out (wo_fs wo) /\
    out = fst (exit_report [simple_message CompileError ("malformed schema: JSON parse error: " +++ e)]).
Proof.
  intros fuel wo a sched cf e j L S N. unfold qlc. rewrite L. cbn zeta. rewrite S. unfold schema_from.
  destruct (d_schema j) as [js|] eqn:E; [apply schema_decodes in E; exfalso; exact (N js E)|].
  eexists. split; reflexivity.
Qed.
Print Assumptions C57_rejected.

(** Two ways to write an object type with a field of type [Int!] *)
Definition int_json : json :=
  JObj [("kind", JStr "NON_NULL"); ("name", JNull); ("ofType", JObj [("name", JStr "Int"); ("kind", JStr "SCALAR")])].
Definition one_json (types : list json) : json := JObj [("data", JObj [("__schema", JObj [("types", JArr types)])])].
Definition query_json : json := one_json
  [JObj [("kind", JStr "OBJECT"); ("name", JStr "Query");
         ("fields", JArr [JObj [("name", JStr "n"); ("type", int_json)]])]].
Definition query_json' : json :=
  JObj [("extensions", JNull); ("data", JObj [("__schema", JObj [("directives", JArr []); ("types", JArr
  [JObj [("name", JStr "Query"); ("interfaces", JArr []);
         ("fields", JArr [JObj [("type", int_json); ("args", JArr []); ("name", JStr "n")]]); ("kind", JStr "OBJECT")]])])])].
Example C57_nonvacuous :
  let js := [{| jt_kind := "OBJECT"; jt_name := "Query"; jt_description := None; jt_possible_types := None; jt_input_fields := None;
                jt_fields := Some [{| jf_name := "n"; jf_description := None;
                                      jf_type := JT "NON_NULL" None (Some (JT "SCALAR" (Some "Int") None)); jf_deprecated := None |}];
                jt_enum_values := None |}] in
  says_schema query_json js /\ same_json query_json query_json' /\ says_schema query_json' js.
Proof.
  cbn zeta. split; [apply schema_decodes; reflexivity|]. assert (S : same_json query_json query_json').
  { assert (I : same_json int_json int_json).
    { eapply same_obj; [apply Permutation_refl|]. repeat constructor. eapply same_obj; [apply Permutation_refl|]. repeat constructor. }
    eapply same_obj; [apply Permutation_refl|]. repeat constructor. eapply same_obj; [apply Permutation_refl|]. repeat constructor.
    eapply same_obj; [apply Permutation_refl|]. repeat constructor. eapply same_obj.
    - cbn. apply (perm_trans (l' := [("name", JStr "Query"); ("kind", JStr "OBJECT"); ("fields", JArr [JObj [("name", JStr "n"); ("type", int_json)]])])); [apply perm_swap|].
      apply perm_skip, perm_swap.
    - cbn. repeat constructor. eapply same_obj; [apply perm_swap|]. repeat constructor. exact I. }
  split; [exact S|]. apply (C57_same _ _ _ S), schema_decodes. reflexivity.
Qed.
(** Values that say nothing: a required key missing or doubled, an unexpected kind of value *)
Example C57_nothing :
  (forall js, ~ says_schema (JObj []) js) /\ (forall js, ~ says_schema (one_json [JObj [("kind", JStr "SCALAR"); ("name", JNull)]]) js) /\
  (forall js, ~ says_schema (one_json [JObj [("kind", JStr "SCALAR"); ("kind", JStr "SCALAR"); ("name", JStr "T")]]) js).
Proof. repeat split; intros js H; apply schema_decodes in H; discriminate. Qed.
