(** A document compiled to a module: from the document to the text. *)
From Verif Require Export DefFacts VarFacts GraphqlFacts.

(** Document [d] compiles with warnings [ws] to output [co] *)
Definition document_file (fuel : nat) (cx : ctx) (c : cconfig) (o : order) (d : definition)
           (ws : list warning) (co : compiled) : Prop :=
  exists op, compile_definition fuel cx d = Some (ws, Ok op) /\ compile_ir c o (cx_schema cx) op = Ok co.

(** Whatever [compile_file] writes is such an output *)
Lemma compile_file_document fuel e f c s path f' r : compile_file fuel e f c s path = Done (f', Ok r) ->
  (forall q, order_ok (env_order e q)) ->
  exists frags d ws co o, order_ok o /\ order_ok (cx_order (file_ctx e c s path frags)) /\
    document_file fuel (file_ctx e c s path frags) c o d ws co /\
    f' (env_locate e (with_extension path "graphql.d.ts")) = Ok (co_contents co) /\
    rp_globals r = co_globals co.
Proof.
  intros H O. apply compile_file_ok in H. destruct H as (ms & co & C & W & ->).
  destruct C as (contents & d & im & ms0 & frags & ms1 & ws & op & _ & _ & _ & _ & Ec & Ei & _).
  exists frags, d, ws, co, (suborder (env_order e path) [2; 0]).
  split; [intros q A k; apply O|]. split; [intros q A k; apply O|]. split; [exists op; auto|].
  split; [|reflexivity]. apply write_file_ok in W. tauto.
Qed.

Lemma document_text_inv fuel cx c o d ws co :
  order_ok (cx_order cx) -> order_ok o -> consistent (cx_schema cx) -> document_file fuel cx c o d ws co ->
  exists P p l op ds us vds vus,
    code_root d = Some (P, p, l) /\ composite (cx_schema cx) P /\
    compile_definition fuel cx d = Some (ws, Ok op) /\
    op_name op = def_name d /\ op_kind op = def_kind d /\
    try_build_variable_ir (cx_schema cx) (doc_vars d) = Ok (op_variables op) /\
    coll_shape (cx_schema cx) P (op_collection op) /\
    rnd_coll c (op_collection op) (def_name d) ds us /\ r_variables c (cx_schema cx) op = Ok (vds, vus) /\
    co_globals co = sunion [] (us ++ vus) /\
    co_contents co = tsfile_text (file_of c op (ds ++ vds) (co_globals co)).
Proof.
  intros O O' Co (op & Hd & Hi). pose proof (compile_result cx O Co _ _ _ _ Hd) as R.
  inversion R as [| | | |P p l ws0 op0 Rt C X Ev Sh En Ek]; subst.
  destruct (compile_ir_inv c o O' _ op P co Sh Hi) as (ds & us & vds & vus & Rn & Rv & Eg & Et).
  rewrite En in Rn. exists P, p, l, op, ds, us, vds, vus. auto 12.
Qed.
