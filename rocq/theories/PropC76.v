(** C76: what clients infer from a generated module with the helper types of the package, from texts to texts. *)
From Verif Require Import SpecWide.
From Verif Require Import LinkData LinkExt IntroCheck ShareWorlds GlobalRead JsonCheck WrittenEq Package RespFacts RunFacts PropC56 PropC04 PropC43 PropC49 PropC18 PropC35.
From Verif Require Import Gql Json Args SpecGtext SpecJson SpecJtext GlayoutFacts SpecExact ExactFacts PropC69 PropC72 PropC73 PropC74 SpecClient.
From Verif Require SpecArgs PropC13 PropC17 PropC65 PropC67.

Definition is_query (d : definition) : Prop := match d with DOp (OpNamed KQuery _ _ _ _ _) => True | _ => False end.
(** What the helpers should give *)
Definition variables_name (d : definition) : string :=
  match doc_vars d with [] => "never" | _ => def_name d +++ "Variables" end.

Lemma default_of m name args : default_export (tsfile_items m) name args <-> name = tf_node m /\ args = tf_args m.
Proof.
  split.
  - intros H. destruct H as [x name args D C]. unfold tsfile_items in C. destruct C as [E|C]; [discriminate|].
    apply in_app_or in C. destruct C as [C|C]; [destruct (tf_globals m); [destruct C|destruct C as [E|[]]; discriminate]|].
    apply in_app_or in C. destruct C as [C|[C|[C|[]]]]; [apply in_map_iff in C; destruct C as (y & E & _); discriminate| |discriminate].
    injection C as _ <- <-. auto.
  - intros [-> ->]. exists "graphqlDocument"; unfold tsfile_items; right; apply in_or_app; right; apply in_or_app; right; cbn; auto.
Qed.
(** Helpers and their meaning *)
Lemma client_of m helper f x : tf_node_from m = nodes_module -> In (helper, f) [("DataOf", data_of); ("VariablesOf", variables_of)] ->
  (client helper (tsfile_items m) x <-> In (tf_node m, List.length (tf_args m)) node_exports /\
     exists t, node_type (tf_node m) (tf_args m) t /\ f string "BasicObject" "never" t = x).
Proof.
  intros F I. split.
  - intros [name args t g A B D Im N T J E]. apply default_of in D. destruct D as [-> ->]. split; [exact N|]. exists t. split; [exact T|].
    assert (g = f); [|congruence]. cbn in I, J. destruct I as [I|[I|[]]], J as [J|[J|[]]]; congruence.
  - intros (N & t & T & E). econstructor; [| |apply default_of; split; reflexivity| |exact N|exact T|exact I|exact E].
    + cbn in I. destruct I as [I|[I|[]]]; injection I as <- _; cbn; tauto.
    + cbn. auto.
    + exists [tf_node m]. split; [left; rewrite F; reflexivity|left; reflexivity].
Qed.

(** The run exits with code 0, whatever the parser, with the node module of the package: what the helpers give for the default
    export of the output of every document *)
Theorem C76_run : forall fuel wo a sched cf js s out f',
  let rc := merge_config (wo_ncpus wo) a cf in
  let c := cconfig_of rc in
  let e := wo_env wo in
  let ls := wo_listing wo in
  let root := rc_root_dir rc in
  let f := wo_fs wo in
  settled wo a cf js s -> wo_schema wo (rc_schema_path rc) = SRDecoded js -> cc_docnode_module c = nodes_module ->
  (forall text ds d, env_parse e text = Ok ds -> In d ds -> parsed_named d) ->
  qlc fuel wo a sched = Exited 0 out f' ->
  forall path, is_source ls root path -> exists contents d,
    f (env_locate e path) = Ok contents /\ env_parse e contents = Ok [d] /\
    (~ reserved (def_name d) -> exists text M, f' (out_loc e path) = Ok text /\ only_reads text M /\
       (is_query d \/ is_subscription d = true -> forall x,
          (client "DataOf" M x <-> x = def_name d) /\ (client "VariablesOf" M x <-> x = variables_name d)) /\
       (~ is_query d -> is_subscription d = false -> forall x,
          (client "DataOf" M x <-> x = "BasicObject") /\ (client "VariablesOf" M x <-> x = "BasicObject"))).
Proof.
  intros fuel wo a sched cf js s out f' rc c e ls root f Se Es Dm Pn H path Sp.
  pose proof Se as [_ In0 Jn _ _ _ _ _ _ _ _]. pose proof (in_loaded _ _ In0) as L. pose proof (intro_consistent _ _ In0) as Co.
  pose proof (loaded_nameable _ _ _ L Jn) as Nm.
  destruct (run_linked fuel wo a sched cf js s out f' Se Es Pn H) as (Outs & _ & _).
  destruct (Outs path Sp) as (contents & d & frags & ws & co & Er & Ep & Ic & D & Oc & Od & Eo & _ & Dn & _).
  exists contents, d. split; [exact Er|]. split; [exact Ep|]. intros Nr. specialize (Dn Nr).
  assert (N : exists m, written_as (file_ctx e c s path frags) c d co m /\
     tf_node m = (if is_subscription d then "QueryDocumentNode" else PropC13.node_of d) /\ tf_args m = PropC13.type_args d /\
     tf_node_from m = cc_docnode_module c).
  { destruct (is_subscription d) eqn:Su; [exact (PropC13.C13_subscription _ _ _ _ _ _ _ Oc Od Co D Su)|exact (PropC13.C13_partial _ _ _ _ _ _ _ Oc Od Co D Su)]. }
  destruct N as (m & W & En & Ea & Ef). rewrite Dm in Ef.
  assert (Rt : exists r, code_root d = Some r).
  { destruct (document_inv _ _ _ _ _ _ _ Oc Od Co D) as (P & p & l & op & ds & us & vds & vus & R & _). eauto. }
  exists (co_contents co), (tsfile_items m). split; [exact Eo|]. split; [exact (proj2 W Nm Dn)|].
  assert (Cl : forall helper g y, In (helper, g) [("DataOf", data_of); ("VariablesOf", variables_of)] ->
    In (tf_node m, List.length (tf_args m)) node_exports -> (exists t, node_type (tf_node m) (tf_args m) t) ->
    (forall t, node_type (tf_node m) (tf_args m) t -> g string "BasicObject" "never" t = y) -> forall x, client helper (tsfile_items m) x <-> x = y).
  { intros helper g y I N (t & T) U x. rewrite (client_of m helper g x Ef I). split.
    - intros (_ & t' & T' & <-). apply U, T'.
    - intros ->. split; [exact N|]. exists t. split; [exact T|apply U, T]. }
  assert (Id : In ("DataOf", data_of) [("DataOf", data_of); ("VariablesOf", variables_of)]) by (left; reflexivity).
  assert (Iv : In ("VariablesOf", variables_of) [("DataOf", data_of); ("VariablesOf", variables_of)]) by (right; left; reflexivity).
  destruct Rt as (r & Rt). clear - En Ea Cl Id Iv Rt. unfold variables_name.
  destruct d as [[? ?|k ? n vars ? ?]|fd]; [discriminate Rt| |]; cbn [is_subscription PropC13.node_of is_query] in *;
    [destruct k|]; cbn [PropC13.type_args PropC13.own_or_default_name doc_vars def_name op_fallback_name] in *.
  - split; [|tauto]. intros _ x. rewrite En, Ea in Cl.
    split; first [apply (Cl "DataOf" data_of _ Id)|apply (Cl "VariablesOf" variables_of _ Iv)]; try (cbn; tauto); try (eexists; constructor);
      intros t T; inversion T; subst; cbn; destruct n, vars; reflexivity.
  - split; [intros [[]|X]; discriminate|]. intros _ _ x. rewrite En, Ea in Cl.
    split; first [apply (Cl "DataOf" data_of _ Id)|apply (Cl "VariablesOf" variables_of _ Iv)]; try (cbn; tauto); try (eexists; constructor);
      intros t T; inversion T; subst; cbn; destruct n, vars; reflexivity.
  - split; [|intros _ X; discriminate]. intros _ x. rewrite En, Ea in Cl.
    split; first [apply (Cl "DataOf" data_of _ Id)|apply (Cl "VariablesOf" variables_of _ Iv)]; try (cbn; tauto); try (eexists; constructor);
      intros t T; inversion T; subst; cbn; destruct n, vars; reflexivity.
  - split; [intros [[]|X]; discriminate|]. intros _ _ x. rewrite En, Ea in Cl.
    split; first [apply (Cl "DataOf" data_of _ Id)|apply (Cl "VariablesOf" variables_of _ Iv)]; try (cbn; tauto); try (eexists; constructor);
      intros t T; inversion T; subst; reflexivity.
Qed.
Print Assumptions C76_run.

(** ** From texts to texts *)
(** The command line [argv] says [a]; the file of the schema says [js]; the process exits with code 0; the node module is that of
    the package.  Then for every source file with a text that says one query there is an output that reads as a module [M], and for
    a client that imports its default export: DataOf is a type that allows exactly the possible responses, VariablesOf one that
    allows the variables of the requests that are spelled out and only such as a server takes, or never if there are no variables *)
Theorem C76_text_partial : forall ck complaint jerr help version fuel wo its argv a nc sched cf stext j js s out f',
  let rc := merge_config (wo_ncpus wo) a cf in
  let c := cconfig_of rc in
  let e := wo_env wo in
  let ls := wo_listing wo in
  let root := rc_root_dir rc in
  let f := wo_fs wo in
  let gm := cc_globals_module c in
  let gl := env_locate e (globals_path c root) in
  on_disk ck complaint jerr wo ->
  SpecArgs.spelled its argv -> SpecArgs.consistent its -> SpecArgs.complete its -> SpecArgs.says its a nc ->
  settled wo a cf js s -> cc_docnode_module c = nodes_module -> gm <> nodes_module ->
  f (env_locate e (rc_schema_path rc)) = Ok stext -> text_holds stext j -> says_schema j js -> fits js -> aliases_apart c js ->
  qlc_command help version fuel wo argv sched = Exited 0 out f' ->
  forall path contents d, is_source ls root path ->
    f (env_locate e path) = Ok contents -> text_says ck contents [d] -> is_query d -> ~ reserved (def_name d) ->
    exists text M, f' (out_loc e path) = Ok text /\ only_reads text M /\
      (plain_wrappers js -> implements_exactly js s -> (forall x, leaf_name c js x -> ~ declares_name (def_name d) x) ->
       NoDup (List.map vd_name (doc_vars d)) -> forall frags P l active custom amb,
         PropC07.imported_fragments e f c path contents frags -> doc_root d = Some (P, l) ->
         surroundings c js custom amb -> surroundings_tight c js custom amb ->
         regular s frags P (fun x => In x l) -> labels_apart s frags P (fun x => In x l) -> tagged_once s frags P (fun x => In x l) ->
         (forall x, In x l -> unconditional active x) ->
         (forall n fd, aget n frags = Some fd -> Forall (unconditional active) (fr_sels fd)) ->
         exists G, (forall x, imports_from M gm x -> module_declares G x /\ exists gtext, f' gl = Ok gtext /\ only_reads gtext G) /\
           forall v, tidy v ->
             ((exists x n, client "DataOf" M x /\ module_allows gm G M amb n x v) <-> response js s frags active custom P l v)) /\
      (doc_vars d = [] -> forall x, client "VariablesOf" M x <-> x = "never") /\
      (doc_vars d <> [] -> inputs_proper js -> flat_inputs js -> (forall x, input_typename c js x -> ~ declares_name (def_name d) x) ->
         exists G, (forall x, imports_from M gm x -> module_declares G x /\ exists gtext, f' gl = Ok gtext /\ only_reads gtext G) /\
           forall scalar_in has_default amb v,
             (loose c js scalar_in amb -> request js scalar_in false has_default (doc_vars d) v ->
                exists x n, client "VariablesOf" M x /\ module_allows gm G M amb n x v) /\
             (tight c js scalar_in amb -> forall lenient x n, client "VariablesOf" M x -> module_allows gm G M amb n x v ->
                request js scalar_in lenient has_default (doc_vars d) v)).
Proof.
  intros ck complaint jerr help version fuel wo its argv a nc sched cf stext j js s out f' rc c e ls root f gm gl
    Dk Sp Cn Cm Sy Se Dm Gm Es Th Sj Fi Al H path contents d Src Ec Ts Iq Nr.
  pose proof Dk as [Hd Hs].
  assert (Pa : parse_args argv = URun a nc) by (apply PropC65.C65_exact; eauto).
  assert (Hq : qlc fuel wo a sched = Exited 0 out f') by (unfold qlc_command in H; rewrite Pa in H; exact H).
  assert (Sc : wo_schema wo (rc_schema_path rc) = SRDecoded js).
  { rewrite (Hs _ _ Es). apply PropC67.C67_schema. eauto. }
  assert (Pn : forall text ds d, env_parse e text = Ok ds -> In d ds -> parsed_named d).
  { intros text ds d0 E I. rewrite Hd in E. destruct (parse_query ck text) as [ds'|] eqn:Ep; [|discriminate]. injection E as ->. eapply C69_named; eauto. }
  assert (Ne : cc_docnode_module c <> cc_globals_module c) by (rewrite Dm; intros E; apply Gm; symmetry; exact E).
  destruct (C76_run fuel wo a sched cf js s out f' Se Sc Dm Pn Hq path Src) as (contents' & d' & Ec' & Ep & K).
  assert (contents' = contents).
  { assert (X : f (env_locate e path) = Ok contents') by exact Ec'. rewrite Ec in X. congruence. }
  subst contents'.
  assert (d' = d).
  { rewrite Hd in Ep. pose proof Ts as T. apply C69_text in T. rewrite T in Ep. congruence. }
  subst d'.
  destruct (K Nr) as (text & M & Et & Rt & Q & _). specialize (Q (or_introl Iq)).
  exists text, M. split; [exact Et|]. split; [exact Rt|]. split; [|split].
  - intros Pw Ie Le Nv frags P l active custom amb If Dr Sur St R Lb Tg U Uf.
    assert (Su : is_subscription d = false) by (destruct d as [[? ?|[] ? ? ? ? ?]|?]; [destruct Iq|reflexivity|destruct Iq|destruct Iq|destruct Iq]).
    destruct (C74_text_partial ck complaint jerr help version fuel wo its argv a nc sched cf stext j js s out f' Dk Sp Cn Cm Sy Se Es Th Sj Fi Pw Al Ne Ie H
      path contents d frags P l active custom amb Src Ec Ts If Su Dr Nr Nv Le Sur St R Lb Tg U Uf) as (text' & M' & G & node & rest & Et' & Rt' & Im & _ & _ & A).
    assert (text' = text) by (assert (X : f' (out_loc e path) = Ok text') by exact Et'; congruence). subst text'.
    assert (M' = M) by (apply Rt; apply Rt'; reflexivity). subst M'.
    exists G. split; [exact Im|]. intros v Tv. rewrite <- (A v Tv). split.
    + intros (x & n & Cl & Av). apply Q in Cl. subst x. exists n. exact Av.
    + intros (n & Av). exists (def_name d), n. split; [apply Q; reflexivity|exact Av].
  - intros E x. destruct (Q x) as [_ V]. unfold variables_name in V. rewrite E in V. exact V.
  - intros Nv Ip Fl Le.
    assert (Vn : variables_name d = def_name d +++ "Variables") by (unfold variables_name; destruct (doc_vars d); [congruence|reflexivity]).
    destruct (C73_text_partial ck complaint jerr help version fuel wo its argv a nc sched cf stext j js s out f' Dk Sp Cn Cm Sy Se Es Th Sj Fi Ip Fl Al Ne H
      path contents d Src Ec Ts Nr Nv Le) as (text' & M' & G & node & Et' & Rt' & Im & _ & _ & A).
    assert (text' = text) by (assert (X : f' (out_loc e path) = Ok text') by exact Et'; congruence). subst text'.
    assert (M' = M) by (apply Rt; apply Rt'; reflexivity). subst M'.
    exists G. split; [exact Im|]. intros si hd amb v. destruct (A si hd amb v) as [A1 A2]. split.
    + intros Lo Rq. destruct (A1 Lo Rq) as (n & Av). exists (def_name d +++ "Variables"), n. split; [|exact Av]. apply Q. rewrite Vn. reflexivity.
    + intros Ti lenient x n Cl Av. apply Q in Cl. rewrite Vn in Cl. subst x. eapply A2; eauto.
Qed.
Print Assumptions C76_text_partial.

(** The same with scalars as the surroundings have them, whatever they are *)
Theorem C76_exact_partial : forall ck complaint jerr help version fuel wo its argv a nc sched cf stext j js s out f',
  let rc := merge_config (wo_ncpus wo) a cf in
  let c := cconfig_of rc in
  let e := wo_env wo in
  let ls := wo_listing wo in
  let root := rc_root_dir rc in
  let f := wo_fs wo in
  let gm := cc_globals_module c in
  let gl := env_locate e (globals_path c root) in
  on_disk ck complaint jerr wo ->
  SpecArgs.spelled its argv -> SpecArgs.consistent its -> SpecArgs.complete its -> SpecArgs.says its a nc ->
  settled wo a cf js s -> cc_docnode_module c = nodes_module -> gm <> nodes_module ->
  f (env_locate e (rc_schema_path rc)) = Ok stext -> text_holds stext j -> says_schema j js -> fits js -> aliases_apart c js ->
  qlc_command help version fuel wo argv sched = Exited 0 out f' ->
  forall path contents d, is_source ls root path ->
    f (env_locate e path) = Ok contents -> text_says ck contents [d] -> is_query d -> ~ reserved (def_name d) ->
    exists text M, f' (out_loc e path) = Ok text /\ only_reads text M /\
      (plain_wrappers js -> implements_exactly js s -> (forall x, leaf_name c js x -> ~ declares_name (def_name d) x) ->
       NoDup (List.map vd_name (doc_vars d)) -> forall frags P l active amb,
         PropC07.imported_fragments e f c path contents frags -> doc_root d = Some (P, l) ->
         regular s frags P (fun x => In x l) -> labels_apart s frags P (fun x => In x l) -> tagged_once s frags P (fun x => In x l) ->
         (forall x, In x l -> unconditional active x) ->
         (forall n fd, aget n frags = Some fd -> Forall (unconditional active) (fr_sels fd)) ->
         exists G, (forall x, imports_from M gm x -> module_declares G x /\ exists gtext, f' gl = Ok gtext /\ only_reads gtext G) /\
           forall v, tidy v ->
             ((exists x n, client "DataOf" M x /\ module_allows gm G M amb n x v) <-> wide_response js s frags active (surrounding c amb) P l v)) /\
      (doc_vars d = [] -> forall x, client "VariablesOf" M x <-> x = "never") /\
      (doc_vars d <> [] -> inputs_proper js -> flat_inputs js -> (forall x, input_typename c js x -> ~ declares_name (def_name d) x) ->
         exists G, (forall x, imports_from M gm x -> module_declares G x /\ exists gtext, f' gl = Ok gtext /\ only_reads gtext G) /\
           forall amb v, (exists x n, client "VariablesOf" M x /\ module_allows gm G M amb n x v) <->
             wide_request js (surrounding c amb) (doc_vars d) v).
Proof.
  intros ck complaint jerr help version fuel wo its argv a nc sched cf stext j js s out f' rc c e ls root f gm gl
    Dk Sp Cn Cm Sy Se Dm Gm Es Th Sj Fi Al H path contents d Src Ec Ts Iq Nr.
  pose proof Dk as [Hd Hs].
  assert (Pa : parse_args argv = URun a nc) by (apply PropC65.C65_exact; eauto).
  assert (Hq : qlc fuel wo a sched = Exited 0 out f') by (unfold qlc_command in H; rewrite Pa in H; exact H).
  assert (Sc : wo_schema wo (rc_schema_path rc) = SRDecoded js).
  { rewrite (Hs _ _ Es). apply PropC67.C67_schema. eauto. }
  assert (Pn : forall text ds d, env_parse e text = Ok ds -> In d ds -> parsed_named d).
  { intros text ds d0 E I. rewrite Hd in E. destruct (parse_query ck text) as [ds'|] eqn:Ep; [|discriminate]. injection E as ->. eapply C69_named; eauto. }
  assert (Ne : cc_docnode_module c <> cc_globals_module c) by (rewrite Dm; intros E; apply Gm; symmetry; exact E).
  destruct (C76_run fuel wo a sched cf js s out f' Se Sc Dm Pn Hq path Src) as (contents' & d' & Ec' & Ep & K).
  assert (contents' = contents).
  { assert (X : f (env_locate e path) = Ok contents') by exact Ec'. rewrite Ec in X. congruence. }
  subst contents'.
  assert (d' = d).
  { rewrite Hd in Ep. pose proof Ts as T. apply C69_text in T. rewrite T in Ep. congruence. }
  subst d'.
  destruct (K Nr) as (text & M & Et & Rt & Q & _). specialize (Q (or_introl Iq)).
  exists text, M. split; [exact Et|]. split; [exact Rt|]. split; [|split].
  - intros Pw Ie Le Nv frags P l active amb If Dr R Lb Tg U Uf.
    assert (Su : is_subscription d = false) by (destruct d as [[? ?|[] ? ? ? ? ?]|?]; [destruct Iq|reflexivity|destruct Iq|destruct Iq|destruct Iq]).
    destruct (C74_exact_text_partial ck complaint jerr help version fuel wo its argv a nc sched cf stext j js s out f' Dk Sp Cn Cm Sy Se Es Th Sj Fi Pw Al Ne Ie H
      path contents d frags P l active amb Src Ec Ts If Su Dr Nr Nv Le R Lb Tg U Uf) as (text' & M' & G & node & rest & Et' & Rt' & Im & _ & _ & A).
    assert (text' = text) by (assert (X : f' (out_loc e path) = Ok text') by exact Et'; congruence). subst text'.
    assert (M' = M) by (apply Rt; apply Rt'; reflexivity). subst M'.
    exists G. split; [exact Im|]. intros v Tv. destruct (A v Tv) as [A1 A2]. split.
    + intros (x & n & Cl & Av). apply Q in Cl. subst x. apply A1. exists n. exact Av.
    + intros X. destruct (A2 X) as (n & Av). exists (def_name d), n. split; [apply Q; reflexivity|exact Av].
  - intros E x. destruct (Q x) as [_ V]. unfold variables_name in V. rewrite E in V. exact V.
  - intros Nv Ip Fl Le.
    assert (Vn : variables_name d = def_name d +++ "Variables") by (unfold variables_name; destruct (doc_vars d); [congruence|reflexivity]).
    destruct (C73_exact_partial fuel wo a sched cf js s out f' Se Sc Ip Fl Al Ne Pn Hq path Src) as (contents' & d' & Ec2 & Ep2 & K2).
    assert (contents' = contents) by (assert (X : f (env_locate e path) = Ok contents') by exact Ec2; rewrite Ec in X; congruence). subst contents'.
    assert (d' = d) by (assert (X : env_parse e contents = Ok [d']) by exact Ep2; rewrite Hd in X; pose proof Ts as T; apply C69_text in T; rewrite T in X; congruence). subst d'.
    destruct (K2 Nr (text_vars_valid ck contents [d] d Ts (or_introl eq_refl)) Le) as (text' & M' & G & node & rest & Et' & Rt' & Im & _ & _ & _ & A).
    destruct (A Nv) as (_ & B). clear A.
    assert (text' = text) by (assert (X : f' (out_loc e path) = Ok text') by exact Et'; congruence). subst text'.
    assert (M' = M) by (apply Rt; apply Rt'; reflexivity). subst M'.
    exists G. split; [exact Im|]. intros amb v. destruct (B amb v) as [B1 B2]. split.
    + intros (x & n & Cl & Av). apply Q in Cl. rewrite Vn in Cl. subst x. apply B1. exists n. exact Av.
    + intros X. destruct (B2 X) as (n & Av). exists (def_name d +++ "Variables"), n. split; [apply Q; rewrite Vn; reflexivity|exact Av].
Qed.
Print Assumptions C76_exact_partial.

(** ** Non-vacuity: the worlds of C74 and C73 *)
Lemma farm_aliases : aliases_apart plain_config farm_json.
Proof.
  intros n x _ W. cbn in W. subst x. split; [cbn; intuition discriminate|]. intros y L. apply last_in in L. destruct L as [J En]. cbn in J.
  repeat (destruct J as [<-|J]; [discriminate En|]). destruct J.
Qed.
Example C76_nonvacuous : exists out f' text M G,
  qlc_command "" "" 30 disk_world ["--num-threads"; "1"] (repeat 0 90) = Exited 0 out f' /\
  f' "./g.graphql.d.ts" = Ok text /\ only_reads text M /\ (forall x, client "VariablesOf" M x <-> x = "never") /\
  exists x n, client "DataOf" M x /\ module_allows "graphql-globals" G M disk_amb n x good_response.
Proof.
  assert (Pa : parse_args ["--num-threads"; "1"] = URun (args_threads 1) false) by reflexivity.
  apply PropC65.C65_exact in Pa. destruct Pa as (its & Sp & Cn & Cm & Sy).
  assert (X : exists j, text_holds farm_text j /\ says_schema j farm_json /\ fits farm_json) by (apply (PropC67.C67_schema ""); exact farm_text_read).
  destruct X as (j & Th & Sj & Fi).
  assert (H : exists out f', qlc_command "" "" 30 disk_world ["--num-threads"; "1"] (repeat 0 90) = Exited 0 out f').
  { do 2 eexists. vm_compute. reflexivity. }
  destruct H as (out & f' & H).
  assert (Dk : on_disk lenient (fun _ => "syntax error") "" disk_world).
  { split; [reflexivity|]. intros p t E. cbn [disk_world wo_schema]. cbn [disk_world wo_fs wo_env] in E. change (disk_files p = Ok t) in E. rewrite E. reflexivity. }
  destruct (C76_text_partial lenient (fun _ => "syntax error") "" "" "" 30 disk_world its ["--num-threads"; "1"] (args_threads 1) false (repeat 0 90)
    config_default farm_text j farm_json farm out f' Dk Sp Cn Cm Sy disk_settled)
    with (path := "./g.graphql") (contents := barn_query) (d := disk_doc) as (text & M & Et & R & A & V & _); auto.
  - discriminate.
  - exact farm_aliases.
  - apply PropC35.pair_is_source. auto.
  - apply C69_text. vm_compute. reflexivity.
  - exact I.
  - apply reservedb_ok. reflexivity.
  - destruct (A farm_wrappers farm_exact farm_leaves (NoDup_nil _) [("PetName", disk_fragment)] "Query" disk_sels (active_of always) no_custom disk_amb
      disk_fragments eq_refl disk_surroundings disk_tight disk_regular disk_labels disk_tagged) as (G & _ & B).
    + intros x _. apply all_unconditional.
    + intros n fd _. apply Forall_forall. intros x _. apply all_unconditional.
    + exists out, f', text, M, G. split; [exact H|]. split; [exact Et|]. split; [exact R|]. split; [apply V; reflexivity|].
      apply B; [unfold good_response; tidied|]. exists 8, "Query". split; [apply possibles_ok; left; reflexivity|]. apply respb_ok. vm_compute. reflexivity.
Qed.
Example C76_nonvacuous_variables : exists out f' text M G,
  qlc_command "" "" 30 shop_world ["--num-threads"; "1"] (repeat 0 90) = Exited 0 out f' /\
  f' "./x.graphql.d.ts" = Ok text /\ only_reads text M /\
  exists x n, client "VariablesOf" M x /\ module_allows "graphql-globals" G M disk_amb n x full_request.
Proof.
  assert (Pa : parse_args ["--num-threads"; "1"] = URun (args_threads 1) false) by reflexivity.
  apply PropC65.C65_exact in Pa. destruct Pa as (its & Sp & Cn & Cm & Sy).
  assert (X : exists j, text_holds shop_text j /\ says_schema j shop_json /\ fits shop_json) by (apply (PropC67.C67_schema ""); exact shop_text_read).
  destruct X as (j & Th & Sj & Fi).
  assert (H : exists out f', qlc_command "" "" 30 shop_world ["--num-threads"; "1"] (repeat 0 90) = Exited 0 out f').
  { do 2 eexists. vm_compute. reflexivity. }
  destruct H as (out & f' & H).
  assert (Dk : on_disk lenient (fun _ => "syntax error") "" shop_world).
  { split; [reflexivity|]. intros p t E. cbn [shop_world wo_schema]. cbn [shop_world wo_fs wo_env] in E. change (shop_files p = Ok t) in E. rewrite E. reflexivity. }
  destruct (C76_text_partial lenient (fun _ => "syntax error") "" "" "" 30 shop_world its ["--num-threads"; "1"] (args_threads 1) false (repeat 0 90)
    config_default shop_text j shop_json shop out f' Dk Sp Cn Cm Sy shop_settled)
    with (path := "./x.graphql") (contents := shop_query) (d := shop_doc) as (text & M & Et & R & _ & _ & A); auto.
  - discriminate.
  - exact shop_aliases.
  - apply PropC43.C43_nonvacuous.
  - apply C69_text. vm_compute. reflexivity.
  - exact I.
  - apply reservedb_ok. reflexivity.
  - destruct A as (G & _ & A); [discriminate|exact shop_proper|exact shop_flat|exact shop_names|].
    exists out, f', text, M, G. split; [exact H|]. split; [exact Et|]. split; [exact R|].
    apply (A shop_scalar no_default disk_amb); [apply shop_loose|apply shop_request].
Qed.

Lemma command_runs help version fuel wo argv sched a nc : parse_args argv = URun a nc -> qlc_command help version fuel wo argv sched = qlc fuel wo a sched.
Proof. intros E. unfold qlc_command. rewrite E. reflexivity. Qed.
(** ** Fragments: the module of ./n.graphql declares PetName, and the helper gives BasicObject *)
Theorem C76_fragment_refuted : exists out f' text M,
  qlc_command "" "" 30 disk_world ["--num-threads"; "1"] (repeat 0 90) = Exited 0 out f' /\
  f' "./n.graphql.d.ts" = Ok text /\ only_reads text M /\
  In (ItConst "graphqlDocument" "FragmentDocumentNode" ["PetName"]) M /\ module_declares M "PetName" /\
  client "DataOf" M "BasicObject" /\ ~ client "DataOf" M "PetName".
Proof.
  assert (H : exists out f', qlc_command "" "" 30 disk_world ["--num-threads"; "1"] (repeat 0 90) = Exited 0 out f' /\
    exists text is, f' "./n.graphql.d.ts" = Ok text /\ only_reads text is /\ In (ItConst "graphqlDocument" "FragmentDocumentNode" ["PetName"]) is /\
      module_declares is "PetName").
  { do 2 eexists. split; [vm_compute; reflexivity|]. do 2 eexists. split; [vm_compute; reflexivity|].
    split; [unfold only_reads; apply (reads_once 2000); vm_compute; reflexivity|].
    split; [cbn; tauto|]. left. eexists (DAlias "PetName" _). split; [|reflexivity]. cbn. do 5 right. left. reflexivity. }
  destruct H as (out & f' & H & text & is & Et & R & Ic & Md).
  destruct (C76_run 30 disk_world (args_threads 1) (repeat 0 90) config_default farm_json farm out f') with (path := "./n.graphql")
    as (contents & d & Ec & Ep & K).
  - exact disk_settled.
  - exact farm_text_read.
  - reflexivity.
  - intros t ds d E J. cbn [disk_world wo_env text_env env_parse] in E. destruct (parse_query lenient t) as [ds'|] eqn:Ep; [|discriminate]. injection E as ->. eapply C69_named; eauto.
  - rewrite <- (command_runs "" "" 30 disk_world ["--num-threads"; "1"] (repeat 0 90) (args_threads 1) false eq_refl). exact H.
  - apply PropC35.pair_is_source. auto.
  - assert (X : wo_fs disk_world (env_locate (wo_env disk_world) "./n.graphql") = Ok barn_fragment) by (vm_compute; reflexivity).
    rewrite X in Ec. injection Ec as <-. clear X. vm_compute in Ep. injection Ep as <-.
    destruct K as (text' & M & Et' & R' & _ & Q); [apply reservedb_ok; reflexivity|].
    assert (text' = text) by (assert (X : f' "./n.graphql.d.ts" = Ok text') by exact Et'; congruence). subst text'.
    assert (M = is) by (apply R; apply R'; reflexivity). subst M.
    exists out, f', text, is. split; [exact H|]. split; [exact Et|]. split; [exact R|]. split; [exact Ic|]. split; [exact Md|].
    destruct (Q (fun x => x) eq_refl "BasicObject") as [Q1 _]. destruct (Q (fun x => x) eq_refl "PetName") as [Q2 _]. split; [apply Q1; reflexivity|].
    intros X. pose proof (proj1 Q2 X) as Y. discriminate Y.
Qed.
Print Assumptions C76_fragment_refuted.
