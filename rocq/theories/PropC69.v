(** C69: the text of a GraphQL document is read for what it says. *)
From Verif Require Import ShareWorlds GlobalRead JsonCheck WrittenEq Package RunFacts PropC43 PropC49 ImportProps PropC56.
From Verif Require Import Gql SpecGtext GparseFacts GlexFacts GlayoutFacts.
From Verif Require PropC17.

(** Every text, every document: the reader gives this document exactly if the text says it *)
Theorem C69_text : forall ck text d, parse_query ck text = Some d <-> text_says ck text d.
Proof.
  intros ck text d. unfold parse_query, text_says. split.
  - intros E. destruct (gql_tokens ck text) as [ts|] eqn:G; [|discriminate]. apply tokens_iff in G. apply document_iff in E. destruct G, E. eauto 6.
  - intros (N & ts & T & A & S). assert (G : gql_tokens ck text = Some ts) by (apply tokens_iff; auto). rewrite G. apply document_iff. auto.
Qed.
Print Assumptions C69_text.

(** A text says at most one document *)
Theorem C69_one : forall ck text d d', text_says ck text d -> text_says ck text d' -> d = d'.
Proof. intros ck text d d' A B. apply C69_text in A. apply C69_text in B. congruence. Qed.
Print Assumptions C69_one.

(** Layout is ignored: two texts with the same tokens, however they are spaced, broken into lines and commented,
    say the same document, up to positions *)
Theorem C69_layout : forall ck text text' ts ts' d,
  tokens_of ck start_pos text ts -> tokens_of ck start_pos text' ts' -> bare ts' = bare ts ->
  parse_query ck text = Some d -> exists d', parse_query ck text' = Some d' /\ unplaced_doc d' = unplaced_doc d.
Proof.
  intros ck text text' ts ts' d T T' E P. apply C69_text in P. destruct P as (N & us & U & A & S).
  assert (us = ts).
  { assert (G : gql_tokens ck text = Some us) by (apply tokens_iff; auto).
    assert (A' : at_most_open 50 us) by auto. clear - T U A'.
    assert (forall p x a b, tokens_of ck p x a -> tokens_of ck p x b -> at_most_open 50 a -> a = b) as F; [|eapply F; eauto].
    clear. intros p x a b X Y A. pose (k := List.length b + 50).
    assert (Bk : forall n l, List.length l <= n -> at_most_open n l).
    { intros n l L c e ->. rewrite app_length in L. clear - L. assert (List.length (List.filter opens c) <= List.length c); [|lia].
      clear. induction c as [|t c IH]; cbn; [lia|]. destruct (opens t); cbn; lia. }
    assert (Ma : at_most_open k a).
    { intros c e E. specialize (A c e E). unfold k. lia. }
    pose proof (lex_complete ck _ _ _ X k _ Ma (le_n _)) as L1. pose proof (lex_complete ck _ _ _ Y k _ (Bk k b ltac:(unfold k; lia)) (le_n _)) as L2.
    congruence. }
  subst us. destruct (doc_follows _ _ S _ E) as (d' & S' & Ed). exists d'. split; auto. apply C69_text. split.
  - destruct d; [congruence|]. destruct d'; discriminate.
  - exists ts'. split; auto. split; auto. eapply open_bare; eauto.
Qed.
Print Assumptions C69_layout.

(** Every name of a document is a name of GraphQL *)
Theorem C69_named : forall ck text ds d, parse_query ck text = Some ds -> In d ds -> parsed_named d.
Proof.
  intros ck text ds d P I. apply C69_text in P. destruct P as (_ & ts & T & _ & S). apply tokens_names in T.
  destruct (series_in _ _ _ _ S I) as (x & D & Sub). assert (G : names_good x) by (intros p n J; eapply T; apply Sub; eauto). clear - D G.
  destruct D as [p ts r sels S F|k p n name v vars ds dirs b sels N V D B|p p1 n p2 p3 c ds dirs b sels D B].
  - constructor; [congruence| |intros v []]. intros k M. eapply (proj1 (proj2 sel_keys)); eauto.
  - rewrite good_cons, !good_app in G. destruct G as (_ & G1 & G2 & _ & G3). constructor.
    + intros _. cbn. destruct N as [|pn n]; [|eapply G1; left; eauto]. destruct k; vm_compute; auto.
    + intros k0 M. eapply (proj1 (proj2 sel_keys)); eauto.
    + intros v0 J. eapply vars_names; eauto.
  - rewrite !good_cons, !good_app in G. destruct G as (_ & G1 & _ & _ & _ & G3). constructor.
    + intros _. cbn. auto.
    + intros k0 M. eapply (proj1 (proj2 sel_keys)); eauto.
    + intros v [].
Qed.
Print Assumptions C69_named.

(** Values are kept as text without loss: the text of a run of tokens says these tokens again *)
Lemma token_again ck t x r : written ck t x r -> forall r', r' = "" \/ first_is (eq " "%char) r' -> written ck t (token_text t) r'.
Proof.
  intros W r' E. assert (N : forall P : ascii -> Prop, ~ P " "%char -> ~ first_is P r').
  { intros P Np F. destruct E as [->|E]; [destruct F|]. destruct r'; [destruct E|]. cbn in E, F. subst. auto. }
  destruct W as [q|c n r B A F|c n r C A D K|b r B K F|b r B]; [constructor|..].
  - constructor; auto. apply N. unfold name_part, name_begin. vm_compute. lia.
  - constructor; auto. destruct E as [->|E]; [left; auto|right]. destruct r'; [destruct E|]. cbn in E |- *. subst. left. cbn. auto.
  - apply (wr_string ck b r'); auto. intros _. apply N. discriminate.
  - exact (wr_block ck b r' B).
Qed.
Theorem C69_values : forall ck p text ts, tokens_of ck p text ts ->
  forall a v b, ts = a ++ v ++ b -> exists ts', tokens_of ck p (source_text (bare v)) ts' /\ bare ts' = bare v.
Proof.
  intros ck p text ts H a v b E.
  assert (W : Forall (fun t => exists x r, written ck (snd t) x r) v).
  { assert (W : Forall (fun t => exists x r, written ck (snd t) x r) ts) by (clear - H; induction H; constructor; eauto).
    rewrite E, !Forall_app in W. tauto. }
  clear H E. assert (K : forall p w, w = "" \/ w = " " -> exists ts', tokens_of ck p (w +++ source_text (bare v)) ts' /\ bare ts' = bare v); [|apply (K p ""); auto].
  clear p text ts a b. induction W as [|[q t] v (x & r & W) _ IH]; intros p w Ew.
  - exists []. split; [|reflexivity]. apply to_end. left. destruct Ew as [-> | ->]; eexists; repeat constructor.
  - assert (G : exists p', gap p w p') by (destruct Ew as [-> | ->]; eexists; repeat constructor). destruct G as (p' & G). cbn [snd] in W.
    destruct v as [|u v].
    + exists [(p', t)]. split; [|reflexivity].
      replace (w +++ source_text (bare [(q, t)])) with (w +++ token_text t +++ "") by (cbn; rewrite sapp_nil_r; reflexivity).
      eapply to_token; [exact G|eapply token_again; eauto|apply spans_move; reflexivity|]. apply to_end. left. eexists. constructor.
    + destruct (IH (move_over (token_text t) p') " ") as (ts' & T & B); auto. exists ((p', t) :: ts'). split; [|cbn [bare List.map snd] in B |- *; unfold bare in B; rewrite B; reflexivity].
      change (source_text (bare ((q, t) :: u :: v))) with (token_text t +++ " " +++ source_text (bare (u :: v))).
      eapply to_token; [exact G|eapply token_again; eauto; right; reflexivity|apply spans_move; reflexivity|exact T].
Qed.
Print Assumptions C69_values.

(** C56 for runs with this reader, without the assumption on names *)
Theorem C69_fit : forall ck complaint fuel wo a sched cf js s out f',
  load_config (ca_config_file a) (wo_config wo) = Ok cf ->
  let rc := merge_config (wo_ncpus wo) a cf in
  let c := cconfig_of rc in
  let e := wo_env wo in
  let ls := wo_listing wo in
  let root := rc_root_dir rc in
  let f := wo_fs wo in
  let gl := env_locate e (globals_path c root) in
  (forall text, env_parse e text = match parse_query ck text with Some d => Ok d | None => Err (complaint text) end) ->
  wo_schema wo (rc_schema_path rc) = SRDecoded js -> load_schema js = Ok s -> json_nameable c js ->
  names_ok ls -> separate e ls c root f -> (forall path, is_source ls root path -> out_loc e path <> gl) ->
  (forall p, order_ok (env_order e p)) -> inputs_consistent s -> SpecSel.consistent s ->
  (forall path text d, is_source ls root path -> f (env_locate e path) = Ok text -> text_says ck text [d] -> ~ reserved (def_name d)) ->
  rc_number_threads rc = 1 \/ (0 < rc_number_threads rc /\ flat_tree ls root) ->
  qlc fuel wo a sched = Exited 0 out f' ->
  forall path, is_source ls root path -> exists text is,
    f' (out_loc e path) = Ok text /\ only_reads text is /\
    (forall ns m, In (ItImport ns m) is ->
       (m = cc_docnode_module c /\ forall n, In n ns -> exists k, In (n, k) node_exports) \/
       (m = cc_globals_module c /\ exists gtext gis, f' gl = Ok gtext /\ only_reads gtext gis /\
          NoDup (bound gis) /\ forall n, In n ns -> In n (bound gis))) /\
    (forall x node args, In (ItConst x node args) is ->
       In node (bound is) /\ In (node, List.length args) node_exports /\ forall n, In n args -> n = "never" \/ In n (bound is)) /\
    (forall n, PropC17.uses (type_decls is) n -> In n (bound is) \/ PropC17.builtin n \/ PropC17.custom_scalar c s n).
Proof.
  intros ck complaint fuel wo a sched cf js s out f' Lc rc c e ls root f gl Rd Es L Jn N S Gd Ho C Co Fr Th H.
  assert (P : forall text ds, env_parse e text = Ok ds -> parse_query ck text = Some ds).
  { intros text ds E. rewrite Rd in E. destruct (parse_query ck text); [injection E as <-; auto|discriminate]. }
  apply (C56_partial fuel wo a sched cf js s out f' Lc Es L Jn N S Gd Ho C Co); auto.
  - intros text ds d E I. eapply C69_named; eauto.
  - intros path text d Sp Er Ep. apply (Fr path text d Sp Er). apply C69_text. auto.
Qed.
Print Assumptions C69_fit.

(** A document with its layout *)
Definition lenient : gql_checks := {| gk_number := fun _ => true; gk_string := fun _ => true |}.
Definition zoo_text : string :=
  "# import F from ""./f.graphql""" +++ nl +++
  "query Zoo($id: [ID!]!, $n: Int = 3) @live {" +++ nl +++
  "  p: pet(id: $id, tags: [""a"", RED, {k: -1.5}]) @include(if: true) {" +++ nl +++
  "    name,... F ...on Cat{meows}" +++ nl +++
  "    ... @skip(if: false) { name } } }" +++ nl.
Definition zoo_close : string :=
  "query Zoo($id:[ID!]!$n:Int=3)@live{p:pet(id:$id tags:[""a""RED{k:-1.5}])@include(if:true){name...F...on Cat{meows}...@skip(if:false){name}}}# end".
Definition zoo_doc : document :=
  [DOp (OpNamed KQuery {| pos_line := 2; pos_col := 1 |} (Some "Zoo")
     [{| vd_pos := {| pos_line := 2; pos_col := 11 |}; vd_name := "id"; vd_type := VTNonNull (VTList (VTNonNull (VTNamed "ID"))); vd_default := None |};
      {| vd_pos := {| pos_line := 2; pos_col := 24 |}; vd_name := "n"; vd_type := VTNamed "Int"; vd_default := Some "3" |}]
     [{| dir_name := "live"; dir_args := [] |}]
     [SField {| pos_line := 3; pos_col := 3 |} (Some "p") "pet" [("id", "$ id"); ("tags", "[ ""a"" RED { k : -1.5 } ]")]
        [{| dir_name := "include"; dir_args := [("if", "true")] |}]
        [SField {| pos_line := 4; pos_col := 5 |} None "name" [] [] [];
         SSpread {| pos_line := 4; pos_col := 14 |} "F" [];
         SInline {| pos_line := 4; pos_col := 19 |} (Some "Cat") [] [SField {| pos_line := 4; pos_col := 26 |} None "meows" [] [] []];
         SInline {| pos_line := 5; pos_col := 9 |} None [{| dir_name := "skip"; dir_args := [("if", "false")] |}]
           [SField {| pos_line := 5; pos_col := 28 |} None "name" [] [] []]]])].
Example C69_nonvacuous : text_says lenient zoo_text zoo_doc /\
  exists ts ts' d', tokens_of lenient start_pos zoo_text ts /\ tokens_of lenient start_pos zoo_close ts' /\ bare ts' = bare ts /\
    parse_query lenient zoo_close = Some d' /\ unplaced_doc d' = unplaced_doc zoo_doc /\ d' <> zoo_doc.
Proof.
  split; [apply C69_text; vm_compute; reflexivity|].
  assert (A : exists ts, gql_tokens lenient zoo_text = Some ts) by (eexists; vm_compute; reflexivity).
  assert (B : exists ts, gql_tokens lenient zoo_close = Some ts) by (eexists; vm_compute; reflexivity).
  destruct A as (ts & A). destruct B as (ts' & B). pose proof A as A0. pose proof B as B0. apply tokens_iff in A. apply tokens_iff in B.
  exists ts, ts'. eexists. split; [apply A|]. split; [apply B|].
  split; [vm_compute in A0, B0; injection A0 as <-; injection B0 as <-; reflexivity|].
  split; [vm_compute; reflexivity|]. split; [vm_compute; reflexivity|]. vm_compute. discriminate.
Qed.
(** A text that says nothing *)
Example C69_rejects : (forall d, ~ text_says lenient "query Q { a(b: ) }" d) /\ (forall d, ~ text_says lenient "query Q { }" d) /\
  (forall d, ~ text_says lenient "type T { a: Int }" d) /\ (forall d, ~ text_says lenient "{ a } }" d).
Proof. repeat split; intros d S; apply C69_text in S; vm_compute in S; discriminate. Qed.

(** Two files as texts, read and compiled *)
From Verif Require PropC35.
Definition barn_query : string :=
  ImportWorlds.import_line "n.graphql" +++
  "query Q { pet { ...PetName ... on Dog { owner { name pet { __typename name } } } ... on Cat { extent: size } } all: pets { name __typename } }".
Definition barn_fragment : string := "fragment PetName on Pet { name ... on Dog { owner { mood } } }".
Definition text_env : env :=
  {| env_parse := fun c => match parse_query lenient c with Some d => Ok d | None => Err "syntax error" end;
     env_locate := fun p => p; env_write := fun _ => WOk; env_similar := fun _ _ => false; env_order := fun _ => plain_order |}.
Definition text_files : fs := ImportWorlds.files [("./g.graphql", barn_query); ("./n.graphql", barn_fragment)].
Definition text_world : world :=
  {| wo_env := text_env; wo_listing := PropC35.pair_listing; wo_ncpus := 4; wo_config := fun _ => CRNotFound "not found";
     wo_schema := fun _ => SRDecoded farm_json; wo_fs := text_files |}.
Lemma text_step file contents n l t : imports_at plain_config file contents n l t ->
  (file = "./g.graphql" /\ contents = barn_query) \/ (file = "./n.graphql" /\ contents = barn_fragment) -> t = "./n.graphql".
Proof.
  intros H K. pose proof (PropC35.imports_target _ _ _ _ _ _ H) as (L & E). destruct H as (q & _ & (rest & Eq & _) & _).
  destruct K as [[-> ->]|[-> ->]].
  - destruct n as [|[|[|n]]]; vm_compute in L; try discriminate; injection L as <-; [vm_compute in E; congruence|discriminate].
  - destruct n as [|[|n]]; vm_compute in L; try discriminate; injection L as <-. discriminate.
Qed.
Lemma text_reach file contents t o : (file = "./g.graphql" /\ contents = barn_query) \/ (file = "./n.graphql" /\ contents = barn_fragment) ->
  reach text_env text_files plain_config file contents t o -> t = "./n.graphql" /\ o = barn_fragment.
Proof.
  intros K R. induction R as [n l t o A Eo|mid mc n l t o R [-> ->] A Eo].
  - apply text_step in A; auto. subst. split; auto. unfold text_files, ImportWorlds.files in Eo. cbn in Eo. congruence.
  - apply text_step in A; auto. subst. split; auto. unfold text_files, ImportWorlds.files in Eo. cbn in Eo. congruence.
Qed.
Lemma text_read path contents : is_source PropC35.pair_listing "." path -> text_files (env_locate text_env path) = Ok contents ->
  (path = "./g.graphql" /\ contents = barn_query) \/ (path = "./n.graphql" /\ contents = barn_fragment).
Proof. intros [-> | ->]%PropC35.pair_source E; [left|right]; (split; [reflexivity|]); vm_compute in E |- *; congruence. Qed.
Lemma text_separate : separate text_env PropC35.pair_listing plain_config "." text_files.
Proof.
  split.
  - intros x y l Hx Hy R. assert (Ey : out_loc text_env y = "./g.graphql.d.ts" \/ out_loc text_env y = "./n.graphql.d.ts").
    { apply PropC35.pair_source in Hy. destruct Hy as [-> | ->]; [left|right]; reflexivity. }
    assert (El : l = "./g.graphql" \/ l = "./n.graphql").
    { destruct R as [|contents file' contents' n l t E I A]; [apply PropC35.pair_source; auto|]. right.
      pose proof (text_read _ _ Hx E) as K. destruct I as [[-> ->]|R].
      - eapply (text_step x contents); eauto.
      - destruct (text_reach _ _ _ _ K R) as [-> ->]. eapply (text_step _ _ _ _ _ A). auto. }
    destruct El as [-> | ->], Ey as [-> | ->]; discriminate.
  - intros x y Hx Hy. apply PropC35.pair_source in Hx. apply PropC35.pair_source in Hy. destruct Hx as [-> | ->], Hy as [-> | ->]; auto; discriminate.
Qed.
Example C69_run : exists out f' text is,
  qlc 30 text_world (args_threads 1) (repeat 0 90) = Exited 0 out f' /\
  f' "./g.graphql.d.ts" = Ok text /\ only_reads text is /\ In (ItImport ["Mood"; "Size"] "graphql-globals") is /\
  (forall n, PropC17.uses (type_decls is) n -> In n (bound is) \/ PropC17.builtin n \/ PropC17.custom_scalar plain_config farm n).
Proof.
  destruct PropC35.C35_nonvacuous as (_ & _ & _ & N & _ & _ & _ & C & Co & _).
  assert (H : exists out f', qlc 30 text_world (args_threads 1) (repeat 0 90) = Exited 0 out f' /\
    exists text is, f' "./g.graphql.d.ts" = Ok text /\ only_reads text is /\ In (ItImport ["Mood"; "Size"] "graphql-globals") is).
  { do 2 eexists. split; [vm_compute; reflexivity|]. do 2 eexists. split; [vm_compute; reflexivity|].
    split; [unfold only_reads; apply (reads_once 2000); vm_compute; reflexivity|]. right; left; reflexivity. }
  destruct H as (out & f' & H & text & is & Et & R & I). exists out, f', text, is. repeat split; auto; [apply R|apply R|].
  assert (Em : load_config (ca_config_file (args_threads 1)) (wo_config text_world) = Ok config_default) by reflexivity.
  destruct (C69_fit lenient (fun _ => "syntax error") 30 text_world (args_threads 1) (repeat 0 90) config_default farm_json farm out f' Em)
    with (path := "./g.graphql") as (text' & is' & Et' & R' & _ & _ & U); auto.
  - apply json_nameableb_ok. vm_compute. reflexivity.
  - exact text_separate.
  - intros p Sp. apply PropC35.pair_source in Sp. destruct Sp as [-> | ->]; discriminate.
  - intros p. exact plain_ok.
  - intros p t d Sp E1 E2. apply C69_text in E2. apply PropC35.pair_source in Sp. destruct Sp as [-> | ->]; vm_compute in E1; injection E1 as <-;
      vm_compute in E2; injection E2 as <-; apply reservedb_ok; reflexivity.
  - apply PropC35.pair_is_source. auto.
  - assert (text' = text). { assert (X : f' "./g.graphql.d.ts" = Ok text') by exact Et'. congruence. } subst text'.
    assert (Ei : is' = is) by (apply R; apply R'; reflexivity). subst is'. exact U.
Qed.
