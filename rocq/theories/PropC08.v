(** C08: internal program errors are unreachable with a consistent schema. *)
From Verif Require Import DefFacts SelWorlds.

(** The four internal errors of src/graphql/ir.rs (the "ProgramError" messages) *)
Definition internal (e : ir_error) : Prop :=
  match e with
  | EMissingType _ | EUnexpectedComplexTraversal _ | EInputObjectOnSelection _ _
  | EMixedTerminalAndComplexFields _ _ => True
  | _ => False
  end.
(** Types a document names itself: in the type condition of a fragment definition or of an inline
    fragment (unlike the types of the fields it selects) *)
Inductive condition_of (d : definition) : string -> Prop :=
| cd_frag f : d = DFrag f -> condition_of d (fr_cond f)
| cd_inline P l p c dirs sub : doc_root d = Some (P, l) -> written l (SInline p (Some c) dirs sub) -> condition_of d c.
Definition operation_root (d : definition) (c : string) : Prop := exists o, d = DOp o /\ (c = "Query" \/ c = "Mutation").

(** The only internal errors there are: a type condition (or an operation's root type) that is
    missing from the schema, or a type condition that names an input object *)
Theorem C08 : forall fuel cx d ws errs e,
  order_ok (cx_order cx) -> consistent (cx_schema cx) ->
  compile_definition fuel cx d = Some (ws, Err errs) -> In e errs -> internal e ->
  (exists c, e = EMissingType c /\ get_type (cx_schema cx) c = None /\ (condition_of d c \/ operation_root d c)) \/
  (exists c, e = EUnexpectedComplexTraversal c /\ input_object (cx_schema cx) c /\ (condition_of d c \/ operation_root d c)).
Proof.
  intros fuel cx d ws errs e O Co H I N. apply compile_result in H; auto.
  inversion H as [p l|P p l e0 R C B|P p l ws0 es R C Ne X|P p l ws0 v R C X V|]; subst.
  - destruct I as [<-|[]]. destruct N.
  - assert (Cd : condition_of d P \/ operation_root d P).
    { destruct d as [[q m|k q n vars ds m]|f]; cbn in R; inversion R; subst.
      - right. eexists. split; [reflexivity|]. destruct k; auto.
      - left. eapply cd_frag. reflexivity. }
    destruct I as [<-|[]]. inversion B; subst; cbn in N; try contradiction.
    + left. eauto.
    + right. eexists. split; [reflexivity|]. split; auto. do 3 eexists; eauto.
  - destruct (run_errors_sound (cx_schema cx) (cx_frags cx) (cx_deprecations cx)) as (_ & _ & Y).
    destruct (Y _ _ _ _ _ _ X eq_refl e I) as (P' & y & W & Ce).
    apply within_written in W. destruct (code_root_sels _ _ _ _ R) as (Q & Dr).
    inversion Ce; subst; cbn in N; try contradiction.
    + left. eexists. split; [reflexivity|]. split; auto. left. eapply cd_inline; eauto.
    + right. eexists. split; [reflexivity|]. split; [do 3 eexists; eauto|]. left. eapply cd_inline; eauto.
  - destruct I as [<-|[]]. destruct N.
Qed.
Print Assumptions C08.

(** So none at all when every type named exists and is not an input object *)
Corollary C08_none : forall fuel cx d ws errs e,
  order_ok (cx_order cx) -> consistent (cx_schema cx) ->
  (forall c, condition_of d c \/ operation_root d c -> get_type (cx_schema cx) c <> None /\ ~ input_object (cx_schema cx) c) ->
  compile_definition fuel cx d = Some (ws, Err errs) -> In e errs -> ~ internal e.
Proof.
  intros fuel cx d ws errs e O Co G H I N.
  destruct (C08 _ _ _ _ _ _ O Co H I N) as [(c & _ & M & Cd)|(c & _ & M & Cd)]; destruct (G _ Cd); contradiction.
Qed.
Print Assumptions C08_none.

(** The code reports the internal "input object type" error for a type condition that names one:
    query { me { ... on Filter { name } } } *)
Theorem C08_refuted : exists fuel cx d ws errs c,
  order_ok (cx_order cx) /\ consistent (cx_schema cx) /\
  compile_definition fuel cx d = Some (ws, Err errs) /\ In (EUnexpectedComplexTraversal c) errs.
Proof.
  exists 10, (zoo_cx false []), (query [node 2 "me" [on 3 "Filter" [leaf 4 "name"]]]).
  eexists _, _, "Filter". split; [apply plain_ok|]. split; [apply zoo_consistent|].
  split; [vm_compute; reflexivity|]. left; reflexivity.
Qed.
Print Assumptions C08_refuted.

(** Consistency is needed: an introspection file whose field claims an object type that is missing *)
Definition broken_json : jschema := [object_type "Query" [plain_field "x" (nonnull (named_type "OBJECT" "Gone"))]].
Theorem C08_consistency_needed : exists s fuel d ws errs,
  load_schema broken_json = Ok s /\ ~ consistent s /\
  compile_definition fuel {| cx_schema := s; cx_deprecations := false; cx_frags := []; cx_order := plain_order |} d
    = Some (ws, Err errs) /\
  In (EMissingType "Gone") errs /\ ~ condition_of d "Gone" /\ ~ operation_root d "Gone".
Proof.
  set (d := query [node 2 "x" [leaf 3 "name"]]).
  assert (N1 : ~ condition_of d "Gone").
  { intros X. inversion X as [f E|P l p c dirs sub E W]; [discriminate|]. inversion E; subst.
    inversion W as [? ? I|? ? ? ? ? ? ? ? I W'|? ? ? ? ? ? I]; subst.
    - destruct I as [I|[]]; discriminate.
    - destruct I as [I|[]]; inversion I; subst.
      inversion W' as [? ? J|? ? ? ? ? ? ? ? J W''|? ? ? ? ? ? J]; subst; destruct J as [J|[]]; inversion J; subst.
      inversion W'' as [? ? K|? ? ? ? ? ? ? ? K|? ? ? ? ? ? K]; destruct K.
    - destruct I as [I|[]]; discriminate. }
  assert (N2 : ~ operation_root d "Gone").
  { intros (o & _ & [E|E]); discriminate. }
  eexists _, 5, d, _, _. split; [vm_compute; reflexivity|].
  match goal with |- ~ consistent ?s0 /\ _ => set (s := s0) end.
  assert (Hc : exists ws errs, compile_definition 5 {| cx_schema := s; cx_deprecations := false; cx_frags := []; cx_order := plain_order |} d
     = Some (ws, Err errs) /\ In (EMissingType "Gone") errs).
  { eexists _, _. split; [vm_compute; reflexivity|]. left; reflexivity. }
  split; [|split; [vm_compute; reflexivity|split; [left; reflexivity|auto]]].
  intros Co. destruct Hc as (ws & errs & Hc & I).
  destruct (C08 _ {| cx_schema := s; cx_deprecations := false; cx_frags := []; cx_order := plain_order |} _ _ _ _ plain_ok Co Hc I Logic.I) as [(c & E & _ & [X|X])|(c & E & _)]; inversion E; subst; auto.
Qed.
Print Assumptions C08_consistency_needed.

(** Non-vacuity: an error of the first kind, for a type condition *)
Example C08_nonvacuous : exists ws errs,
  order_ok plain_order /\ consistent zoo /\
  compile_definition 10 (zoo_cx false []) (query [on 2 "Gone" [leaf 3 "x"]]) = Some (ws, Err errs) /\
  In (EMissingType "Gone") errs /\ internal (EMissingType "Gone").
Proof.
  eexists _, _. split; [apply plain_ok|]. split; [apply zoo_consistent|]. split; [vm_compute; reflexivity|].
  split; [left; reflexivity|exact Logic.I].
Qed.
