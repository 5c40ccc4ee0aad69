(** What a compiled document says: the text of a module tree that a TypeScript reader recovers. *)
From Verif Require Export NameFacts.

(** [m] is the module in the output [co] for document [d]: the output is its text, and whenever
    names are usable reading the text yields the statements of [m] and nothing else *)
Definition written_as (cx : ctx) (c : cconfig) (d : definition) (co : compiled) (m : tsfile) : Prop :=
  co_contents co = tsfile_text m /\
  (nameable c (cx_schema cx) -> doc_named (cx_frags cx) d (def_name d) ->
   forall is, read_module (co_contents co) is <-> is = tsfile_items m).

Lemma written_text cx c d co m : written_as cx c d co m -> co_contents co = tsfile_text m.
Proof. intros [H _]. exact H. Qed.

Lemma written_ok fuel cx c d ws co op P ds us vds vus :
  order_ok (cx_order cx) -> consistent (cx_schema cx) ->
  compile_definition fuel cx d = Some (ws, Ok op) -> op_name op = def_name d ->
  try_build_variable_ir (cx_schema cx) (doc_vars d) = Ok (op_variables op) ->
  coll_shape (cx_schema cx) P (op_collection op) ->
  rnd_coll c (op_collection op) (def_name d) ds us -> r_variables c (cx_schema cx) op = Ok (vds, vus) ->
  co_globals co = sunion [] (us ++ vus) ->
  co_contents co = tsfile_text (file_of c op (ds ++ vds) (co_globals co)) ->
  written_as cx c d co (file_of c op (ds ++ vds) (co_globals co)).
Proof.
  intros O Co Ed En Ev Sh Rn Rv Eg Et. split; [exact Et|].
  intros Nm Dn is. pose proof (module_ok _ _ _ _ _ _ _ _ _ _ _ _ O Co Nm Dn Ed En Ev Sh Rn Rv Eg) as W.
  apply tsfile_reads in W. rewrite <- Et in W. split; [|intros ->; exact W].
  intros R. eapply read_module_functional; eauto.
Qed.

(** Every compiled document is the text of a module tree, which reads back as that tree *)
Lemma document_inv fuel cx c o d ws co :
  order_ok (cx_order cx) -> order_ok o -> consistent (cx_schema cx) -> document_file fuel cx c o d ws co ->
  exists P p l op ds us vds vus,
    code_root d = Some (P, p, l) /\ composite (cx_schema cx) P /\
    compile_definition fuel cx d = Some (ws, Ok op) /\
    op_name op = def_name d /\ op_kind op = def_kind d /\
    try_build_variable_ir (cx_schema cx) (doc_vars d) = Ok (op_variables op) /\
    coll_shape (cx_schema cx) P (op_collection op) /\
    rnd_coll c (op_collection op) (def_name d) ds us /\ r_variables c (cx_schema cx) op = Ok (vds, vus) /\
    co_globals co = sunion [] (us ++ vus) /\
    written_as cx c d co (file_of c op (ds ++ vds) (co_globals co)).
Proof.
  intros O O' Co D. destruct (document_text_inv _ _ _ _ _ _ _ O O' Co D) as (P & p & l & op & ds & us & vds & vus &
    Rt & C & Ed & En & Ek & Ev & Sh & Rn & Rv & Eg & Et).
  exists P, p, l, op, ds, us, vds, vus. do 10 (split; [assumption|]). eapply written_ok; eauto.
Qed.

(** The same for a concrete output *)
Definition reads_as (co : compiled) (m : tsfile) : Prop :=
  co_contents co = tsfile_text m /\ forall is, read_module (co_contents co) is <-> is = tsfile_items m.
Lemma reads_by n co m : co_contents co = tsfile_text m ->
  match lex n (co_contents co) with Some ts => p_items n ts | None => None end = Some (tsfile_items m) -> reads_as co m.
Proof.
  intros E H. split; auto. destruct (lex n (co_contents co)) as [ts|] eqn:L; [|discriminate].
  assert (R : read_module (co_contents co) (tsfile_items m)). { exists ts. split; [exists n; auto|exists n; auto]. }
  intros is. split; [|intros ->; auto]. intros R'. eapply read_module_functional; eauto.
Qed.
