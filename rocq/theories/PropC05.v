(** C05: valid documents compile. *)
From Verif Require Import Compiled SelWorlds ImportTerm.

(** Validity of a document against a schema and the fragments it imports *)
Record valid_document (s : schema) (frags : amap string fragdef) (d : definition) : Prop := {
  vd_root : exists P l, doc_root d = Some (P, l) /\ composite s P /\ valid_sels s frags P l;
  vd_vars : Forall (fun v => valid_gtype (vgtype v) = true /\ good_var s v) (doc_vars d)
}.

Lemma valid_compiles cx d : order_ok (cx_order cx) -> consistent (cx_schema cx) ->
  valid_document (cx_schema cx) (cx_frags cx) d -> is_subscription d = false ->
  exists n, forall fuel, n <= fuel -> exists ws op P, compile_definition fuel cx d = Some (ws, Ok op) /\
    doc_root d = option_map (fun x => (P, snd x)) (doc_root d) /\
    coll_shape (cx_schema cx) P (op_collection op).
Proof.
  intros O Co [(P & l & Dr & C & V) Vv] Su.
  pose proof (code_root_doc d Su) as E. rewrite Dr in E. destruct (code_root d) as [[[Q p] m]|] eqn:R; [|discriminate].
  cbn in E. inversion E; subst Q m. clear E.
  destruct (collection_valid cx O Co P l p C V) as [n Hn]. exists n. intros fuel L.
  destruct (Hn fuel L [0] [1] RootLocal) as (par & En & par' & ws & cs & Ec & Eo & _).
  assert (Vo : exists r, try_build_variable_ir (cx_schema cx) (doc_vars d) = Ok r).
  { apply vars_accepted; (eapply Forall_impl; [|exact Vv]); cbn; tauto. }
  destruct Vo as (vs & Ev).
  assert (X : exists op, compile_definition fuel cx d = Some (ws, Ok op)).
  { destruct d as [[? ?|k q nm vars dirs sels]|f]; cbn in R; inversion R; subst; cbn [compile_definition build_from_operation doc_vars] in *.
    - rewrite En, Ec, Eo, Ev. eauto.
    - rewrite En, Ec, Eo. eauto. }
  destruct X as (op & X). exists ws, op, P. split; auto. split; [rewrite Dr; reflexivity|].
  pose proof (compile_result cx O Co _ _ _ _ X) as Y. inversion Y; subst. congruence.
Qed.

(** Compilation of the document succeeds, given enough recursion depth, unless it is a subscription
    or selects an abstract type without any object type *)
Theorem C05_partial : forall cx c o d P l,
  order_ok (cx_order cx) -> order_ok o -> consistent (cx_schema cx) -> inhabited_types (cx_schema cx) ->
  valid_document (cx_schema cx) (cx_frags cx) d -> is_subscription d = false ->
  doc_root d = Some (P, l) -> (exists T, possible (cx_schema cx) P T) ->
  exists n, forall fuel, n <= fuel -> exists ws co, document_file fuel cx c o d ws co.
Proof.
  intros cx c o d P l O O' Co Inh V Su Dr Po. destruct (valid_compiles cx d O Co V Su) as [n Hn]. exists n.
  intros fuel L. destruct (Hn fuel L) as (ws & op & Q & X & E & Sh). rewrite Dr in E. cbn in E. inversion E; subst Q.
  destruct (renders c _ Inh P _ (op_name op) Sh Po) as ([ds us] & Er).
  assert (Rv : exists r, r_variables c (cx_schema cx) op = Ok r).
  { pose proof (compile_result cx O Co _ _ _ _ X) as Y. inversion Y as [| | | |P' p' l' ws0 op0 Rt C Cr Ev Sh' En Ek]; subst.
    unfold r_variables, try_build_variable_ir in *. destruct V as [_ Vv].
    destruct (doc_vars d) as [|v vs] eqn:Ed; [injection Ev as Ev; rewrite <- Ev; eauto|].
    destruct (collect_res (List.map (build_variable (cx_schema cx)) (v :: vs))) as [r|] eqn:Ec; [|discriminate].
    injection Ev as Ev. rewrite <- Ev.
    destruct (vars_written c (cx_schema cx) (v :: vs) r) as (rs & us' & E1 & _).
    - eapply Forall_impl; [|exact Vv]; cbn; tauto.
    - eapply Forall_impl; [|exact Vv]; cbn; tauto.
    - auto.
    - rewrite E1. eauto. }
  destruct Rv as ([vds vus] & Rv). exists ws. eexists. exists op. split; [exact X|].
  rewrite (compile_ir_eq c o O'), Er, Rv. reflexivity.
Qed.
Print Assumptions C05_partial.

(** Whole files: if the file can be read, parses, its imports are processed without complaint, the
    document is valid and the output can be written, then the file compiles and all its messages are
    warnings *)
Theorem C05_file : forall e f c s path contents d k im frags P l,
  (forall q, order_ok (env_order e q)) -> consistent s -> inhabited_types s ->
  read_file e f path = Ok contents -> parse_file e contents path = Ok d ->
  add_imports k e f c path contents [] [] = Done (im, []) -> parse_foreign e path im [] = (frags, []) ->
  valid_document s frags d -> is_subscription d = false ->
  doc_root d = Some (P, l) -> (exists T, possible s P T) ->
  env_write e (with_extension path "graphql.d.ts") = WOk ->
  exists n, forall fuel, n <= fuel -> exists f' r,
    compile_file fuel e f c s path = Done (f', Ok r) /\ Forall (fun m => ms_level m = CompileWarning) (rp_messages r).
Proof.
  intros e f c s path contents d k im frags P l O Co Inh Er Ep Ei Ef V Su Dr Po Ew.
  set (cx := {| cx_schema := s; cx_deprecations := cc_deprecations c; cx_frags := frags;
                cx_order := suborder (env_order e path) [1; 0] |}).
  destruct (C05_partial cx c (suborder (env_order e path) [2; 0]) d P l) as [n Hn]; auto.
  { intros q A m. apply O. } { intros q A m. apply O. }
  exists (n + k). intros fuel L. destruct (Hn fuel ltac:(lia)) as (ws & co & op & Hd & Hi).
  unfold compile_file. rewrite Er, Ep. rewrite (add_imports_mono e f c k fuel) by (try lia; congruence). rewrite Ei, Ef.
  fold cx. rewrite Hd. cbn [cx_schema cx] in Hi. rewrite Hi. unfold write_file. rewrite Ew.
  eexists _, _. split; [reflexivity|]. cbn [rp_messages app]. apply Forall_forall. intros m I.
  apply in_map_iff in I. destruct I as ([] & <- & _); reflexivity.
Qed.
Print Assumptions C05_file.

(** The exclusions are needed: a valid subscription is rejected, ... *)
Theorem C05_subscription_refuted : exists cx d,
  order_ok (cx_order cx) /\ consistent (cx_schema cx) /\ inhabited_types (cx_schema cx) /\
  valid_document (cx_schema cx) (cx_frags cx) d /\
  forall fuel ws op, compile_definition fuel cx d <> Some (ws, Ok op).
Proof.
  exists (zoo_cx false []), (DOp (OpNamed KSubscription p0 (Some "S") [] [] [leaf 2 "ticks"])).
  split; [apply plain_ok|]. split; [apply zoo_consistent|]. split; [exact zoo_inhabited|]. split.
  - constructor; [|constructor]. eexists _, _. split; [reflexivity|]. split; [apply compositeb_ok; reflexivity|].
    constructor; [|constructor]. eapply valid_leaf; [eexists; split; vm_compute; reflexivity|].
    intros C. apply compositeb_ok in C. vm_compute in C. discriminate.
  - intros fuel ws op E. destruct fuel as [|fuel]; [vm_compute in E; discriminate|].
    cbn [compile_definition build_from_operation] in E. vm_compute in E. discriminate.
Qed.
Print Assumptions C05_subscription_refuted.

(** ... and so is a valid document about an interface that no type implements *)
Theorem C05_uninhabited_refuted : exists cx d,
  order_ok (cx_order cx) /\ consistent (cx_schema cx) /\ valid_document (cx_schema cx) (cx_frags cx) d /\
  is_subscription d = false /\ forall fuel c o ws co, order_ok o -> ~ document_file fuel cx c o d ws co.
Proof.
  exists (zoo_cx false []), (DFrag (frag "F" "Ghost" [leaf 2 "name"])).
  split; [apply plain_ok|]. split; [apply zoo_consistent|]. split; [|split; [reflexivity|]].
  - constructor; [|constructor]. eexists _, _. split; [reflexivity|]. split; [apply compositeb_ok; reflexivity|].
    constructor; [|constructor]. eapply valid_leaf; [eexists; split; vm_compute; reflexivity|].
    intros C. apply compositeb_ok in C. vm_compute in C. discriminate.
  - intros fuel c o ws co Oo (op & Hd & Hi). destruct fuel as [|fuel]; [vm_compute in Hd; discriminate|].
    vm_compute in Hd. inversion Hd; subst op. rewrite (compile_ir_eq c o Oo) in Hi. cbn in Hi. discriminate.
Qed.
Print Assumptions C05_uninhabited_refuted.

(** Non-vacuity: a query through an interface, an inline fragment and an imported fragment, with a
    variable *)
Definition C05_doc : definition :=
  DOp (OpNamed KQuery p0 (Some "Q")
    [{| vd_pos := p0; vd_name := "f"; vd_type := VTList (VTNamed "Filter"); vd_default := None |}] []
    [node 2 "me" [node 3 "pets" [leaf 4 "name"; on 5 "Dog" [leaf 6 "barks"]]; spread 7 "F"]; leaf 8 "color"]).
Definition C05_frags : list fragdef := [frag "F" "User" [node 9 "friend" [leaf 10 "name"]]].
Ltac leaf_ok := eapply valid_leaf; [eexists; split; vm_compute; reflexivity|
  intros Cx; apply compositeb_ok in Cx; vm_compute in Cx; discriminate].
Ltac node_ok := eapply valid_composite; [eexists; split; vm_compute; reflexivity|apply compositeb_ok; vm_compute; reflexivity|discriminate|].
Example C05_nonvacuous :
  let cx := zoo_cx false C05_frags in
  valid_document (cx_schema cx) (cx_frags cx) C05_doc /\ is_subscription C05_doc = false /\
  inhabited_types (cx_schema cx) /\ possible (cx_schema cx) "Query" "Query".
Proof.
  cbn zeta. split; [|split; [reflexivity|split; [exact zoo_inhabited|]]].
  - constructor.
    + eexists _, _. split; [reflexivity|]. split; [apply compositeb_ok; reflexivity|].
      constructor; [|constructor; [leaf_ok|constructor]].
      node_ok. constructor; [|constructor; [|constructor]].
      * node_ok. constructor; [leaf_ok|]. constructor; [|constructor].
        apply valid_inline; [apply compositeb_ok; reflexivity|]. constructor; [leaf_ok|constructor].
      * eapply valid_spread; [reflexivity|apply compositeb_ok; reflexivity|]. constructor; [|constructor].
        node_ok. constructor; [leaf_ok|constructor].
    + constructor; [|constructor]. split; [reflexivity|]. split; [cbn; lia|]. right. vm_compute. discriminate.
  - eexists. split; [reflexivity|]. reflexivity.
Qed.
