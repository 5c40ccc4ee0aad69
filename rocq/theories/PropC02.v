(** C02: schema loading is total and exact. *)
From Verif Require Import LoadFacts Main Worlds.

(** Loading fails exactly when some type is malformed, with the error of the first such type *)
Theorem C02_error : forall js e, load_schema js = Err e <-> first_bad bad_type js e.
Proof. exact load_err. Qed.
Print Assumptions C02_error.

(** ... which is reported as a malformed schema, naming the type concerned *)
Definition malformed_text (e : schema_error) : string :=
  "malformed schema: " +++
  match e with
  | EMissingTypeOfForNonNull => "missing type of information on field"
  | EMissingTypeOfForList => "missing type of information on field"
  | EMissingNameForField => "missing name on field"
  | EUnknownType name kind => "unknown type defintion `" +++ kind +++ "` on field `" +++ name +++ "`"
  | EFieldsMissingForType name => "complex type `" +++ name +++ "` is missing fields"
  | EEnumMissingValues name => "enum `" +++ name +++ "` is missing variants"
  | EInterfaceMissingTypes name => "interface `" +++ name +++ "` has no implementations"
  | EUnionMissingTypes name => "union `" +++ name +++ "` has no implementations"
  end.
Theorem C02_reported : forall path js,
  (exists e m, first_bad bad_type js e /\ parse_schema path (SRDecoded js) = Err [m] /\ ms_level m = CompileError /\ ms_text m = malformed_text e) \/
  (none_bad bad_type js /\ exists s, parse_schema path (SRDecoded js) = Ok s /\ load_schema js = Ok s).
Proof.
  intros path js. unfold parse_schema. destruct (load_schema js) as [s|e] eqn:H.
  - right. split; [apply (load_ok _ _ H)|]. eauto.
  - left. exists e. eexists. split; [apply load_err; auto|]. split; [reflexivity|]. split; reflexivity.
Qed.
Print Assumptions C02_reported.

(** Otherwise each name resolves to its last definition, with exactly the declared fields (last
    declaration of each name) and __typename on objects, interfaces and unions *)
Theorem C02_loaded : forall js s, load_schema js = Ok s ->
  none_bad bad_type js /\
  (forall n j, last_named jt_name n js j ->
     exists t, get_type s n = Some t /\ st_doc t = jt_description j /\ type_matches j (st_def t)) /\
  (forall n, none_named jt_name n js -> get_type s n = None).
Proof. exact load_ok. Qed.
Print Assumptions C02_loaded.

(** __typename can be selected on every object, interface and union; input objects offer only what they
    declare *)
Theorem C02_typename : forall js s n t, load_schema js = Ok s -> get_type s n = Some t ->
  match st_def t with
  | TObject m | TInterface _ m _ | TUnion _ _ m => aget "__typename" m <> None
  | TInputObject _ m => exists j fs, last_named jt_name n js j /\ jt_input_fields j = Some fs /\
      (none_named jf_name "__typename" fs -> aget "__typename" m = None)
  | _ => True
  end.
Proof.
  intros js s n t L G. destruct (load_ok _ _ L) as (_ & La & No).
  destruct (named_dec jt_name n js) as [N|(j & Lj)]; [rewrite (No n N) in G; discriminate|].
  destruct (La n j Lj) as (t' & G' & _ & M). rewrite G in G'. inversion G'; subst t'. clear G'.
  assert (K : forall fs m, lookup_matches true fs m -> aget "__typename" m <> None).
  { intros fs m (A & B). destruct (named_dec jf_name "__typename" fs) as [Nf|(f & Lf)].
    - rewrite (B _ Nf). discriminate.
    - destruct (A _ _ Lf) as (f' & -> & _). discriminate. }
  inversion M; subst; eauto. exists j, fs. split; auto. split; auto.
  intros Nf. match goal with H : lookup_matches false _ _ |- _ => destruct H as (_ & B) end. rewrite (B _ Nf). reflexivity.
Qed.
Print Assumptions C02_typename.

(** Non-vacuity: a type defined twice; an unknown kind after a good type *)
Example C02_nonvacuous_ok : exists s t,
  load_schema [object_type "A" []; object_type "A" [plain_field "x" (named_type "SCALAR" "Int")]] = Ok s /\
  get_type s "A" = Some t /\ exists m, st_def t = TObject m /\ List.length m = 2.
Proof. do 2 eexists. split; [reflexivity|]. split; [reflexivity|]. eexists. split; reflexivity. Qed.
Example C02_nonvacuous_err :
  first_bad bad_type [object_type "A" []; object_type "B" [plain_field "x" (nonnull (named_type "THING" "Int"))]] (EUnknownType "Int" "THING").
Proof. apply load_err. reflexivity. Qed.
