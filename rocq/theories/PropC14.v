(** C14: variables are typed faithfully. *)
From Verif Require Import Written SelWorlds.

(** Variable lists of valid type references are accepted iff every variable has at most one list
    level and a type that exists; otherwise the first offending variable is named. *)
Theorem C14_accepted : forall s vs, Forall (fun d => valid_gtype (vgtype d) = true) vs ->
  ((exists r, try_build_variable_ir s vs = Ok r) <-> Forall (good_var s) vs).
Proof.
  intros s vs V. split.
  - intros (r & E). assert (D : Forall (good_var s) vs \/ ~ Forall (good_var s) vs).
    { clear. induction vs as [|v vs IH]; [auto|]. destruct (good_dec s v) as [G|G], IH as [F|F].
      all: try (left; constructor; auto; fail).
      all: right; intros X; inversion X; auto. }
    destruct D as [G|B]; auto. destruct (vars_rejected s vs V B) as (pre & d & suf & e & _ & _ & _ & X & _). congruence.
  - apply vars_accepted. auto.
Qed.
Print Assumptions C14_accepted.

Theorem C14_rejected : forall s vs, Forall (fun d => valid_gtype (vgtype d) = true) vs -> ~ Forall (good_var s) vs ->
  exists pre d suf e, vs = (pre ++ d :: suf)%list /\ Forall (good_var s) pre /\ ~ good_var s d /\
    try_build_variable_ir s vs = Err e /\ var_complaint s d e.
Proof. exact vars_rejected. Qed.
Print Assumptions C14_rejected.

(** The Variables type of a compiled operation: one property per variable, sorted by name; see
    [var_prop] in VarFacts.v for what each property is.  Without variables there is no such type. *)
Theorem C14_written : forall fuel cx c o d ws co,
  order_ok (cx_order cx) -> order_ok o -> consistent (cx_schema cx) ->
  document_file fuel cx c o d ws co -> Forall (fun v => valid_gtype (vgtype v) = true) (doc_vars d) ->
  exists m ds, written_as cx c d co m /\
    Forall (fun x => decl_name x <> def_name d +++ "Variables") ds /\
    (doc_vars d = [] /\ tf_decls m = ds /\
     tf_args m = (match d with DFrag _ => [def_name d] | DOp _ => [def_name d; "never"] end) \/
     doc_vars d <> [] /\ tf_args m = [def_name d; def_name d +++ "Variables"] /\
     exists ms vs, tf_decls m = (ds ++ [DObj (def_name d +++ "Variables") ms])%list /\
       Permutation (doc_vars d) vs /\
       StronglySorted (fun a b => str_leb (vd_name a) (vd_name b) = true) vs /\
       Forall2 (var_prop c (cx_schema cx)) vs ms).
Proof.
  intros fuel cx c o d ws co O O' Co H V.
  destruct (document_inv _ _ _ _ _ _ _ O O' Co H) as (P & p & l & op & ds & us & vds & vus & R & C & Hc & En & Ek & Ev & Sh & Rn & Rv & Eg & Et).
  exists (file_of c op (ds ++ vds) (co_globals co)), ds. split; auto. cbn [file_of tf_decls tf_args]. split.
  { apply Forall_forall. intros x I. destruct (rnd_coll_names c _ _ _ _ Rn x I) as [->|(r & ->)]; intros E.
    - rewrite <- (sapp_nil_r (def_name d)) in E at 1. apply sapp_inj_l in E. discriminate.
    - apply sapp_inj_l in E. discriminate. }
  unfold try_build_variable_ir in Ev. unfold r_variables in Rv.
  destruct (doc_vars d) as [|v vs] eqn:Ed.
  - left. split; auto. injection Ev as Ev. rewrite <- Ev in Rv. inversion Rv; subst. rewrite app_nil_r. split; auto.
    unfold node_args, vars_arg. rewrite <- Ev, Ek, En. destruct d as [[? ?|[| |] ? ? ? ? ?]|f]; reflexivity.
  - right. split; [discriminate|].
    assert (Gd : Forall (good_var (cx_schema cx)) (v :: vs)).
    { apply C14_accepted; auto. unfold try_build_variable_ir. destruct (collect_res _); inversion Ev. eauto. }
    destruct (collect_res (List.map (build_variable (cx_schema cx)) (v :: vs))) as [r|] eqn:Er; [|discriminate].
    injection Ev as Ev. rewrite <- Ev in Rv.
    destruct (vars_written c _ _ _ V Gd Er) as (rs & us' & E1 & Hu & vs' & Pm & So & F).
    rewrite E1 in Rv. inversion Rv; subst. split.
    { unfold node_args, vars_arg. rewrite <- Ev, Ek, En. destruct d as [[? ?|[| |] ? ? ? ? ?]|f]; cbn in *; try discriminate; reflexivity. }
    rewrite En. eauto 10.
Qed.
Print Assumptions C14_written.

(** Non-vacuity: query Q($b: [Color!], $a: Filter!, $c: Int) *)
Definition var (n : string) (t : vartype) : vardef := {| vd_pos := p0; vd_name := n; vd_type := t; vd_default := None |}.
Definition C14_doc : definition :=
  DOp (OpNamed KQuery p0 (Some "Q") [var "b" (VTList (VTNonNull (VTNamed "Color"))); var "a" (VTNonNull (VTNamed "Filter"));
                                     var "c" (VTNamed "Int")] [] [leaf 2 "color"]).
Example C14_nonvacuous :
  exists ws co, document_file 10 (zoo_cx false []) (cconfig_of (merge_config 4 no_args config_default)) plain_order C14_doc ws co /\
    Forall (fun v => valid_gtype (vgtype v) = true) (doc_vars C14_doc) /\ co_globals co = ["Color"; "Filter"] /\
    co_contents co =
      banner +++ import_text ["QueryDocumentNode"] "@notarize/qlc-cli/typed-documentnode" +++ import_text ["Color"; "Filter"] "graphql-globals" +++ nl
      +++ "export type Q = {" +++ nl +++ "  readonly color: Color;" +++ nl +++ "};" +++ nl +++ nl
      +++ "export type QVariables = {" +++ nl +++ "  a: Filter;" +++ nl +++ "  b?: Color[] | null;" +++ nl
      +++ "  c?: number | null;" +++ nl +++ "};" +++ nl +++ nl
      +++ "declare const graphqlDocument: QueryDocumentNode<Q, QVariables>;" +++ nl +++ "export default graphqlDocument;".
Proof.
  eexists _, _. split; [|split; [|split]].
  - eexists. split; vm_compute; reflexivity.
  - repeat constructor.
  - reflexivity.
  - vm_compute. reflexivity.
Qed.
Example C14_nonvacuous_bad :
  ~ Forall (good_var zoo) [var "a" (VTNamed "Int"); var "b" (VTList (VTList (VTNamed "Int")))] /\
  try_build_variable_ir zoo [var "a" (VTNamed "Int"); var "b" (VTList (VTList (VTNamed "Int")))] = Err (VListOfList "b" p0) /\
  try_build_variable_ir zoo [var "a" (VTNamed "Nope")] = Err (VUnknownCustomType "Nope" p0).
Proof.
  split; [|split; reflexivity]. intros F. inversion F as [|? ? _ F1]; subst. inversion F1 as [|? ? G _]; subst.
  destruct G as [L _]. cbn in L. lia.
Qed.
