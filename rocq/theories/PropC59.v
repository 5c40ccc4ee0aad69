(** C59: a downloaded schema is as good as a complete introspection result. *)
From Verif Require Import DecodeFacts DownloadFacts SpecDownload LoadFacts DefFacts Worlds.
From Coq Require Import Lia.

(** What is downloaded: everything but deprecations, deprecated input fields if the server hides them, and what is below
    seven levels of a type reference *)
Theorem C59_answer : forall sv js,
  says_schema (answer sv introspection_query) js <-> js = List.map (short_typedef (sv_hides sv)) (sv_types sv).
Proof.
  intros sv js. rewrite <- (schema_decodes _ js), answer_d. split; [intros H; injection H as H; auto|intros ->; reflexivity].
Qed.
Print Assumptions C59_answer.

(** All that the server answers, qlc reads it or not *)
Theorem C59_whole : forall sv, answer sv introspection_query = ans_schema sv.
Proof.
  intros sv. unfold answer. cbn [introspection_query List.map]. rewrite execute_eq. cbn -[obj q_full_type]. unfold obj at 1. cbn [List.map leaf]. unfold leaf; rewrite !execute_eq.
  cbn -[obj q_full_type]. rewrite List.map_map, (List.map_ext _ (ans_type sv) (type_whole sv)). unfold ans_schema.
  destruct (sv_mutation sv), (sv_subscription sv); reflexivity.
Qed.
Print Assumptions C59_whole.
(** Every server accepts the query *)
Theorem C59_accepted : accepted_on "Query" introspection_query.
Proof.
  assert (R : forall n, accepted_on "__Type" (type_ref n)).
  { induction n as [|n IH]; cbn [type_ref app]; eapply accepted_all; [do 2 right; left; reflexivity|cbn; repeat constructor; cbn; intuition discriminate| |do 2 right; left; reflexivity|cbn; repeat constructor; cbn; intuition discriminate|];
    repeat (apply Forall_cons || apply Forall_nil); try (apply accepted_leaf; cbn; tauto).
    destruct n; (eapply accepted_sub; [cbn; eauto 12| |intros O; first [discriminate O|tauto]]; [exact IH]). }
  assert (N : accepted_on "__Type" [leaf "name"]).
  { eapply accepted_all; [do 2 right; left; reflexivity|cbn; repeat constructor; cbn; tauto|]. apply Forall_cons; [apply accepted_leaf; cbn; tauto|constructor]. }
  assert (V : accepted_on "__InputValue" q_input_value).
  { eapply accepted_all; [do 4 right; left; reflexivity|cbn; repeat constructor; cbn; intuition discriminate|].
    repeat (apply Forall_cons || apply Forall_nil); try (apply accepted_leaf; cbn; tauto).
    eapply accepted_sub; [cbn; eauto 12| |intros O; first [discriminate O|tauto]]; [apply (R 7)]. }
  eapply accepted_all; [left; reflexivity|cbn; repeat constructor; cbn; tauto|]. repeat (apply Forall_cons || apply Forall_nil).
  eapply accepted_sub; [left; reflexivity| |discriminate].
  eapply accepted_all; [right; left; reflexivity|cbn; repeat constructor; cbn; intuition discriminate|].
  repeat (apply Forall_cons || apply Forall_nil); (eapply accepted_sub; [cbn; eauto 12| |discriminate]); auto.
  eapply accepted_all; [do 2 right; left; reflexivity|cbn; repeat constructor; cbn; intuition discriminate|].
  repeat (apply Forall_cons || apply Forall_nil); try (apply accepted_leaf; cbn; tauto).
  - eapply accepted_sub; [cbn; eauto 12| |intros O; first [discriminate O|tauto]]; []. eapply accepted_all; [do 3 right; left; reflexivity|cbn; repeat constructor; cbn; intuition discriminate|].
    repeat (apply Forall_cons || apply Forall_nil); try (apply accepted_leaf; cbn; tauto).
    + eapply accepted_sub; [cbn; eauto 12| |intros O; first [discriminate O|tauto]]; [exact V].
    + eapply accepted_sub; [cbn; eauto 12| |intros O; first [discriminate O|tauto]]; [apply (R 7)].
  - eapply accepted_sub; [cbn; eauto 12| |intros O; first [discriminate O|tauto]]; [exact V].
  - eapply accepted_sub; [cbn; eauto 12| |intros O; first [discriminate O|tauto]]; [apply (R 7)].
  - eapply accepted_sub; [cbn; eauto 12| |intros O; first [discriminate O|tauto]]; []. eapply accepted_all; [do 5 right; left; reflexivity|cbn; repeat constructor; cbn; intuition discriminate|].
    repeat (apply Forall_cons || apply Forall_nil); apply accepted_leaf; cbn; tauto.
  - eapply accepted_sub; [cbn; eauto 12| |intros O; first [discriminate O|tauto]]; [apply (R 7)].
Qed.
Print Assumptions C59_accepted.

Lemma cut_shallow n : forall t, wrappers t <= n -> cut n t = t.
Proof.
  induction n as [|n IH]; intros [k m [t|]] H; cbn in *; try reflexivity; [inversion H|].
  rewrite IH; [reflexivity|]. apply le_S_n. exact H.
Qed.
Lemma field_short f : wrappers (jf_type f) <= 7 -> jf_deprecated f <> Some true -> field_of_json (short_field f) = field_of_json f.
Proof.
  intros W D. unfold field_of_json. cbn [short_field jf_type jf_name jf_description jf_deprecated]. rewrite (cut_shallow 7 _ W).
  destruct (ftype_of_json (jf_type f)); [|reflexivity]. destruct (jf_deprecated f) as [[]|]; congruence.
Qed.
Lemma insert_short l : forall m, (forall f, In f l -> wrappers (jf_type f) <= 7 /\ jf_deprecated f <> Some true) ->
  insert_fields (List.map short_field l) m = insert_fields l m.
Proof.
  induction l as [|f l IH]; intros m H; [reflexivity|]. cbn [List.map insert_fields].
  destruct (H f (or_introl eq_refl)) as [W D]. rewrite (field_short f W D). destruct (field_of_json f); [|reflexivity].
  apply IH. intros g I. apply H. right. exact I.
Qed.
Lemma shown_all h l : (forall f, In f l -> jf_deprecated f <> Some true) -> shown h l = l.
Proof.
  intros H. unfold shown. destruct h; [|reflexivity]. induction l as [|f l IH]; [reflexivity|]. cbn [filter]. pose proof (H f (or_introl eq_refl)) as D.
  rewrite IH by (intros g I; apply H; right; exact I). destruct (jf_deprecated f) as [[]|]; congruence.
Qed.
Lemma type_short h t : (forall f, looked_at t f -> wrappers (jf_type f) <= 7 /\ jf_deprecated f <> Some true) ->
  type_of_json (short_typedef h t) = type_of_json t.
Proof.
  intros H. unfold type_of_json. cbn [short_typedef jt_kind jt_name jt_description jt_fields jt_input_fields jt_possible_types jt_enum_values].
  assert (F : forall b, match option_map (List.map short_field) (jt_fields t) with None => None | Some fs => Some (get_fields_for_complex fs b) end =
                        match jt_fields t with None => None | Some fs => Some (get_fields_for_complex fs b) end).
  { intros b. destruct (jt_fields t) as [l|] eqn:E; [|reflexivity]. cbn. unfold get_fields_for_complex. rewrite insert_short; [reflexivity|].
    intros f I. apply H. left. eauto. }
  assert (G : forall b, match option_map (fun l => List.map short_field (shown h l)) (jt_input_fields t) with None => None | Some fs => Some (get_fields_for_complex fs b) end =
                        match jt_input_fields t with None => None | Some fs => Some (get_fields_for_complex fs b) end).
  { intros b. destruct (jt_input_fields t) as [l|] eqn:E; [|reflexivity]. cbn. unfold get_fields_for_complex. rewrite shown_all, insert_short; [reflexivity| |];
    intros f I; apply H; right; eauto. }
  pose proof (F true) as F1. pose proof (G false) as G1.
  destruct (jt_fields t) as [l|]; destruct (jt_input_fields t) as [l'|]; cbn [option_map] in *; try injection F1 as ->; try injection G1 as ->; reflexivity.
Qed.
Lemma load_short h l : forall m, (forall t f, In t l -> looked_at t f -> wrappers (jf_type f) <= 7 /\ jf_deprecated f <> Some true) ->
  load_types (List.map (short_typedef h) l) m = load_types l m.
Proof.
  induction l as [|t l IH]; intros m H; [reflexivity|]. cbn [List.map load_types]. rewrite type_short by (intros f; apply H; left; reflexivity).
  destruct (type_of_json t); [|reflexivity]. apply IH. intros u f I. apply H. right. exact I.
Qed.

Definition with_schema (wo : world) (r : schema_read) : world :=
  {| wo_env := wo_env wo; wo_listing := wo_listing wo; wo_ncpus := wo_ncpus wo; wo_config := wo_config wo;
     wo_schema := fun _ => r; wo_fs := wo_fs wo |}.

(** For schemas without deprecations and with at most seven wrappers around a type: every run with the
    downloaded schema is the run with the complete one *)
Theorem C59_partial : forall fuel wo a sched e sv,
  (forall t f, In t (sv_types sv) -> looked_at t f -> wrappers (jf_type f) <= 7 /\ jf_deprecated f <> Some true) ->
  qlc fuel (with_schema wo (schema_from e (answer sv introspection_query))) a sched =
  qlc fuel (with_schema wo (schema_from e (w_schema (sv_types sv)))) a sched.
Proof.
  intros fuel wo a sched e sv H. unfold schema_from. rewrite answer_d, w_schema_d.
  assert (X : forall p, parse_schema p (SRDecoded (List.map (short_typedef (sv_hides sv)) (sv_types sv))) = parse_schema p (SRDecoded (sv_types sv))).
  { intros p. cbn [parse_schema]. unfold load_schema. rewrite load_short by exact H. reflexivity. }
  unfold qlc, with_schema. cbn [wo_config wo_schema wo_fs wo_ncpus wo_env wo_listing].
  destruct (load_config (ca_config_file a) (wo_config wo)); [|reflexivity]. cbn zeta. rewrite X. reflexivity.
Qed.
Print Assumptions C59_partial.

(** More than seven wrappers: no run can use the downloaded schema *)
Lemma bad_cut n : forall t, proper t -> wrappers t > n -> exists e, bad_ref (cut n t) e.
Proof.
  induction n as [|n IH]; intros [k m [t|]] P W; cbn in *; try (exfalso; inversion W; fail).
  - destruct P as [[->| ->] _]; eexists; constructor.
  - destruct P as [K P]. apply le_S_n in W. destruct (IH t P W) as (e & B). exists e. constructor; assumption.
Qed.

(** The fields that a type of its kind has, and that are shown *)
Definition field_of_type (hides : bool) (t : jtypedef) (f : jfield) : Prop :=
  ((jt_kind t = "OBJECT" \/ jt_kind t = "INTERFACE") /\ exists l, jt_fields t = Some l /\ In f l) \/
  (jt_kind t = "INPUT_OBJECT" /\ (exists l, jt_input_fields t = Some l /\ In f l) /\ (hides = false \/ jf_deprecated f <> Some true)).
Lemma deep_complex l f tn m : In f l -> proper (jf_type f) -> wrappers (jf_type f) > 7 ->
  get_fields_for_complex (List.map short_field l) tn <> Ok m.
Proof.
  intros I P W H. destruct (complex_ok _ _ _ H) as [N _]. destruct (bad_cut 7 _ P W) as (e & B).
  apply (N (short_field f) e); [apply in_map; exact I|exact B].
Qed.
Lemma in_shown h l f : In f l -> h = false \/ jf_deprecated f <> Some true -> In f (shown h l).
Proof.
  intros I [->|D]; [exact I|]. unfold shown. destruct h; [|exact I]. apply filter_In. split; [exact I|]. destruct (jf_deprecated f) as [[]|]; congruence.
Qed.
Lemma deep_type h t f : field_of_type h t f -> proper (jf_type f) -> wrappers (jf_type f) > 7 -> forall u, type_of_json (short_typedef h t) <> Ok u.
Proof.
  intros F P W u. unfold type_of_json. cbn [short_typedef jt_kind jt_name jt_description jt_fields jt_input_fields jt_possible_types jt_enum_values].
  destruct F as [([K|K] & l & E & I)|(K & (l & E & I) & Sh)]; [| |apply (in_shown h l f I) in Sh; clear I; rename Sh into I]; rewrite K, E; cbn [String.eqb Ascii.eqb Bool.eqb option_map];
    try (destruct (jt_possible_types t); [|discriminate]);
    match goal with |- context [get_fields_for_complex ?x ?b] => destruct (get_fields_for_complex x b) as [m|] eqn:G; [|discriminate] end;
    exfalso; exact (deep_complex _ f _ m I P W G).
Qed.
Theorem C59_deep : forall fuel wo a sched e sv t f cf,
  In t (sv_types sv) -> field_of_type (sv_hides sv) t f -> proper (jf_type f) -> wrappers (jf_type f) > 7 ->
  load_config (ca_config_file a) (wo_config wo) = Ok cf ->
  exists out, qlc fuel (with_schema wo (schema_from e (answer sv introspection_query))) a sched = Exited 1 out (wo_fs wo).
Proof.
  intros fuel wo a sched e sv t f cf I F P W C. unfold schema_from. rewrite answer_d.
  destruct (load_schema (List.map (short_typedef (sv_hides sv)) (sv_types sv))) as [s|er] eqn:L.
  - exfalso. destruct (load_ok _ _ L) as (N & _). destruct (type_of_json (short_typedef (sv_hides sv) t)) as [u|e'] eqn:T.
    + exact (deep_type _ t f F P W u T).
    + apply (N (short_typedef (sv_hides sv) t) e'); [apply in_map; exact I|apply type_err; exact T].
  - unfold qlc, with_schema. cbn [wo_config wo_schema wo_fs wo_ncpus wo_env wo_listing]. rewrite C. cbn zeta. cbn [parse_schema]. rewrite L.
    eexists. reflexivity.
Qed.
Print Assumptions C59_deep.

(** Deprecations are never known: no warning in any run over any document *)
Lemma quiet_fields l : forall m r, (forall x f, aget x m = Some f -> sf_deprecated f = false) ->
  insert_fields (List.map short_field l) m = Ok r -> forall x f, aget x r = Some f -> sf_deprecated f = false.
Proof.
  induction l as [|g l IH]; intros m r Q; cbn [List.map insert_fields]; [intros H; injection H as <-; exact Q|].
  destruct (field_of_json (short_field g)) as [f|] eqn:E; [|discriminate]. intros H. apply (IH _ _) with (2 := H).
  intros x h. rewrite aget_aset. destruct (eqb x (jf_name (short_field g))); [|apply Q].
  intros X. injection X as <-. unfold field_of_json in E. destruct (ftype_of_json _); [|discriminate]. injection E as <-. reflexivity.
Qed.
Lemma quiet_complex l b m : get_fields_for_complex (List.map short_field l) b = Ok m -> forall x f, aget x m = Some f -> sf_deprecated f = false.
Proof.
  apply quiet_fields. destruct b; cbn; [|discriminate]. intros x f. match goal with |- (if ?b then _ else _) = _ -> _ => destruct b end; [|discriminate].
  intros H. injection H as <-. reflexivity.
Qed.
Definition quiet (s : schema) : Prop := forall P n f, field_of s P n f -> sf_deprecated f = false.
Lemma quiet_type h t u : type_of_json (short_typedef h t) = Ok u ->
  match st_def u with TObject m | TInterface _ m _ | TUnion _ _ m => forall x f, aget x m = Some f -> sf_deprecated f = false | _ => True end.
Proof.
  unfold type_of_json. cbn [short_typedef jt_kind jt_name jt_description jt_fields jt_input_fields jt_possible_types jt_enum_values].
  destruct (jt_fields t) as [l|]; destruct (jt_input_fields t) as [l'|]; cbn [option_map];
  repeat match goal with |- context [if ?b then _ else _] => destruct b end;
  repeat match goal with |- context [match ?x with _ => _ end = Ok _] => destruct x eqn:? end; try discriminate;
  intros H; injection H as <-; cbn [st_def]; try exact I; try (eapply quiet_complex; eassumption);
  cbn; intros x f; match goal with |- (if ?b then _ else _) = _ -> _ => destruct b end; intros X; inversion X; reflexivity.
Qed.
Lemma quiet_load h l s : load_schema (List.map (short_typedef h) l) = Ok s -> quiet s.
Proof.
  intros L P n f (u & G & H). destruct (load_ok _ _ L) as (_ & La & No).
  assert (X : exists t, type_of_json (short_typedef h t) = Ok u).
  { revert L G. unfold load_schema. assert (Q : forall (P : string) u, aget P (@nil (string * stype)) = Some u -> exists t, type_of_json (short_typedef h t) = Ok u) by discriminate.
    clear La No H. revert Q. generalize (@nil (string * stype)). induction l as [|t l IH]; intros m Q; cbn [List.map load_types].
    - intros E G. injection E as <-. exact (Q P u G).
    - destruct (type_of_json (short_typedef h t)) as [v|] eqn:E; [|discriminate]. apply IH. intros P' u'.
      rewrite aget_aset. destruct (eqb P' _); [|apply Q]. intros X. injection X as <-. eauto. }
  destruct X as (t & X). apply quiet_type in X. destruct (st_def u); try contradiction; eapply X; exact H.
Qed.
Theorem C59_never_deprecated : forall fuel cx d ws r sv,
  load_schema (List.map (short_typedef (sv_hides sv)) (sv_types sv)) = Ok (cx_schema cx) ->
  order_ok (cx_order cx) -> consistent (cx_schema cx) ->
  compile_definition fuel cx d = Some (ws, r) -> filter is_depr ws = [].
Proof.
  intros fuel cx d ws r sv L O Co H. apply quiet_load in L. apply compile_result in H; auto.
  assert (D : forall js p f P n, field_of (cx_schema cx) P n f -> depr_of (cx_deprecations cx) js p f P = []).
  { intros js p f P n F. unfold depr_of. rewrite (L _ _ _ F), andb_false_r. reflexivity. }
  assert (Y : (forall js P K x ws es, srun (cx_schema cx) (cx_frags cx) (cx_deprecations cx) js P K x ws es -> filter is_depr ws = []) /\
    (forall js K c p sub ws es, prun (cx_schema cx) (cx_frags cx) (cx_deprecations cx) js K c p sub ws es -> filter is_depr ws = []) /\
    (forall js P K l ws es, crun (cx_schema cx) (cx_frags cx) (cx_deprecations cx) js P K l ws es -> filter is_depr ws = [])).
  { apply run_mutind; intros; rewrite ?filter_app, ?filter_depr_of;
      repeat match goal with X : filter is_depr _ = [] |- _ => rewrite X end; auto.
    all: try (erewrite narrow_warn_depr by eassumption; auto).
    all: try (erewrite D by eassumption; auto). }
  destruct Y as (_ & _ & Y).
  inversion H as [q l|P q l e0 R C B|P q l ws0 es R C Ne X|P q l ws0 v R C X V|P q l ws0 op R C X V]; subst; auto; eapply Y; eauto.
Qed.
Print Assumptions C59_never_deprecated.

(** A server, given its types *)
Definition serve (h : bool) (js : jschema) : server :=
  {| sv_value_old := fun _ _ => false; sv_hides := h; sv_types := js; sv_query := "Query"; sv_mutation := None; sv_subscription := None; sv_args := fun _ _ => [];
     sv_default := fun _ => None; sv_interfaces := fun _ => None; sv_value_doc := fun _ _ => None; sv_reason := fun _ => None |}.
Definition field_old (t : jtype) (b : bool) : jfield :=
  {| jf_name := "a"; jf_description := None; jf_type := t; jf_deprecated := Some b |}.
Definition int : jtype := JT "SCALAR" (Some "Int") None.
Fixpoint lists_of (n : nat) : jtype := match n with O => int | S n => JT "LIST" None (Some (lists_of n)) end.
(** Compiles one file with one thread, with deprecation warnings *)
Definition warn_args : cli_args :=
  {| ca_root_dir := None; ca_config_file := None; ca_schema_path := None; ca_use_custom_scalars := false;
     ca_custom_scalar_prefix := None; ca_root_dir_import_prefix := None; ca_global_types_module_name := None;
     ca_docnode_module_name := None; ca_disable_readonly_types := false; ca_show_deprecation_warnings := true;
     ca_num_threads := Some 1 |}.
Definition one_query : world := tiny_world tiny_env flat_listing (one_file "./x.graphql" "Q").
Definition seq (n : nat) : list nat := repeat 0 n.
Definition outcome_of (p : process_end) : option (nat * string * option string) :=
  match p with
  | Exited c out f => Some (c, out, match f "./x.graphql.d.ts" with Ok t => Some t | Err _ => None end)
  | _ => None
  end.
Definition downloaded (h : bool) (js : jschema) : world := with_schema one_query (schema_from "" (answer (serve h js) introspection_query)).
Definition introspected (js : jschema) : world := with_schema one_query (schema_from "" (w_schema js)).

(** A deprecated field: no warning, and no @deprecated in the output *)
Theorem C59_refuted : exists js c out t c' out' t',
  outcome_of (qlc 10 (downloaded false js) warn_args (seq 50)) = Some (c, out, Some t) /\
  outcome_of (qlc 10 (introspected js) warn_args (seq 50)) = Some (c', out', Some t') /\ out <> out' /\ t <> t'.
Proof.
  exists [object_type "Query" [field_old int true]]. do 6 eexists. split; [vm_compute; reflexivity|].
  split; [vm_compute; reflexivity|]. split; discriminate.
Qed.
Print Assumptions C59_refuted.
(** ... although the server would say which fields are deprecated, and which input fields, if it were asked *)
Theorem C59_flags : forall sv p f, 
  (execute sv (leaf "isDeprecated") (OField p f) = ("isDeprecated", JBool true) <-> jf_deprecated f = Some true) /\
  (execute sv (leaf "isDeprecated") (OField p f) = ("isDeprecated", JBool false) <-> jf_deprecated f <> Some true) /\
  execute sv (leaf "isDeprecated") (OInput f) = execute sv (leaf "isDeprecated") (OField p f).
Proof. intros sv p f. cbn. destruct (jf_deprecated f) as [[]|]; cbn; intuition congruence. Qed.
Print Assumptions C59_flags.
(** ... and why; and without (includeDeprecated: true) it would not show them *)
Theorem C59_hidden : forall sv t f,
  execute sv (leaf "deprecationReason") (OField (jt_name t) f) = ("deprecationReason", ans_text (sv_reason sv f)) /\
  execute sv (IS "fields" false [leaf "name"]) (OFull t) =
    ("fields", ans_list (fun f => JObj [("name", JStr (jf_name f))]) (option_map (shown true) (jt_fields t))) /\
  execute sv (IS "enumValues" false [leaf "name"]) (OFull t) =
    ("enumValues", ans_list (fun v => JObj [("name", JStr v)]) (option_map (filter (fun v => if sv_value_old sv (jt_name t) v then false else true)) (jt_enum_values t))).
Proof.
  intros sv t f. split; [|split].
  - cbn. destruct (sv_reason sv f); reflexivity.
  - rewrite execute_eq. cbn -[obj v_fields v_list]. rewrite (list_whole sv [leaf "name"] (OField (jt_name t)) (fun f => JObj [("name", JStr (jf_name f))])) by reflexivity.
    reflexivity.
  - rewrite execute_eq. cbn -[obj v_values v_list]. rewrite (list_whole sv [leaf "name"] (OValue (jt_name t)) (fun v => JObj [("name", JStr v)])) by reflexivity.
    reflexivity.
Qed.
Print Assumptions C59_hidden.
(** A type with eight wrappers: nothing can be compiled *)
Theorem C59_refuted_deep : exists js t, 
  option_map (fun x => (fst (fst x), snd x)) (outcome_of (qlc 10 (downloaded false js) warn_args (seq 50))) = Some (1, None) /\
  option_map (fun x => (fst (fst x), snd x)) (outcome_of (qlc 10 (introspected js) warn_args (seq 50))) = Some (0, Some t).
Proof.
  exists [object_type "Query" [field_old (lists_of 8) false]]. eexists. split; vm_compute; reflexivity.
Qed.
Print Assumptions C59_refuted_deep.

Example C59_nonvacuous : exists c out t,
  (forall t f, In t [object_type "Query" [field_old (lists_of 7) false]] -> looked_at t f ->
     wrappers (jf_type f) <= 7 /\ jf_deprecated f <> Some true) /\
  outcome_of (qlc 10 (downloaded true [object_type "Query" [field_old (lists_of 7) false]]) warn_args (seq 50)) = Some (c, out, Some t).
Proof.
  do 3 eexists. split; [|vm_compute; reflexivity].
  intros t f [<-|[]] [(l & E & I)|(l & E & I)]; [|discriminate]. injection E as <-. destruct I as [<-|[]].
  split; [cbn; lia|discriminate].
Qed.
Example C59_deep_nonvacuous :
  let t := object_type "Query" [field_old (lists_of 8) false] in
  field_of_type true t (field_old (lists_of 8) false) /\ proper (lists_of 8) /\ wrappers (lists_of 8) > 7.
Proof. cbn. split; [left; split; [auto|eexists; split; [reflexivity|cbn; auto]]|]. split; [tauto|lia]. Qed.
