(** C91: code that uses a query by the helper types of the package stays well typed when its schema changes for the better, from texts to texts. *)
From Verif Require Import SpecWide.
From Verif Require Import LinkData LinkExt IntroCheck ShareWorlds GlobalRead JsonCheck WrittenEq Package RespFacts RunFacts PropC56 PropC04 PropC43 PropC49 PropC18 PropC35.
From Verif Require Import Gql Json Args SpecGtext SpecJson SpecJtext GlayoutFacts SpecExact ExactFacts PropC69 PropC72 PropC73 PropC74 SpecClient PropC76.
From Verif Require Import SpecRequire PropC88 PropC89 PropC90.
From Verif Require SpecArgs PropC13 PropC17 PropC65 PropC67.

Lemma asks_some vars0 vars : asks_less vars0 vars -> vars0 <> [] -> vars <> [].
Proof. intros [I _] N E. subst vars. destruct vars0 as [|d vars0]; [contradiction|]. destruct (I (vd_name d)). left. reflexivity. Qed.
Lemma query_answers d : is_query d -> is_subscription d = false.
Proof. destruct d as [[? ?|[] ? ? ? ? ?]|?]; intros []; reflexivity. Qed.

(** Two projects with the same options and the node module of the package, before and after a change of the schema or of the
    documents; both runs exit with code 0.  A query of the one and a query of the other: where what is answered to the second
    is more than what the first is answered, whatever DataOf the second accepts, DataOf the first accepts; where less is required
    of the variables of the second, whatever VariablesOf the first allows, VariablesOf the second allows *)
Theorem C91_text_partial : forall ck complaint0 complaint jerr0 jerr help0 help version0 version fuel0 fuel wo0 wo its0 its argv0 argv a0 a nc0 nc sched0 sched cf0 cf
    stext0 stext j0 j js0 s0 js s out0 out f0' f',
  let rc0 := merge_config (wo_ncpus wo0) a0 cf0 in
  let rc := merge_config (wo_ncpus wo) a cf in
  let c := cconfig_of rc in
  let e0 := wo_env wo0 in
  let e := wo_env wo in
  let f0 := wo_fs wo0 in
  let f := wo_fs wo in
  let gm := cc_globals_module c in
  on_disk ck complaint0 jerr0 wo0 -> on_disk ck complaint jerr wo ->
  SpecArgs.spelled its0 argv0 -> SpecArgs.consistent its0 -> SpecArgs.complete its0 -> SpecArgs.says its0 a0 nc0 ->
  SpecArgs.spelled its argv -> SpecArgs.consistent its -> SpecArgs.complete its -> SpecArgs.says its a nc ->
  settled wo0 a0 cf0 js0 s0 -> settled wo a cf js s ->
  f0 (env_locate e0 (rc_schema_path rc0)) = Ok stext0 -> text_holds stext0 j0 -> says_schema j0 js0 -> fits js0 ->
  f (env_locate e (rc_schema_path rc)) = Ok stext -> text_holds stext j -> says_schema j js -> fits js ->
  cconfig_of rc0 = c -> cc_docnode_module c = nodes_module -> gm <> nodes_module -> aliases_apart c js0 -> aliases_apart c js ->
  qlc_command help0 version0 fuel0 wo0 argv0 sched0 = Exited 0 out0 f0' -> qlc_command help version fuel wo argv sched = Exited 0 out f' ->
  forall path0 contents0 d0 path contents d,
    is_source (wo_listing wo0) (rc_root_dir rc0) path0 -> f0 (env_locate e0 path0) = Ok contents0 -> text_says ck contents0 [d0] -> is_query d0 -> ~ reserved (def_name d0) ->
    is_source (wo_listing wo) (rc_root_dir rc) path -> f (env_locate e path) = Ok contents -> text_says ck contents [d] -> is_query d -> ~ reserved (def_name d) ->
    exists text0 M0 text M, f0' (out_loc e0 path0) = Ok text0 /\ only_reads text0 M0 /\ f' (out_loc e path) = Ok text /\ only_reads text M /\
      (* what is answered *)
      (plain_wrappers js0 -> plain_wrappers js -> leaves_kept js0 js -> NoDup (List.map vd_name (doc_vars d0)) -> NoDup (List.map vd_name (doc_vars d)) ->
       (forall x, leaf_name c js0 x -> ~ declares_name (def_name d0) x) -> (forall x, leaf_name c js x -> ~ declares_name (def_name d) x) ->
       forall frags0 P0 l0 frags P l,
         PropC07.imported_fragments e0 f0 c path0 contents0 frags0 -> doc_root d0 = Some (P0, l0) ->
         PropC07.imported_fragments e f c path contents frags -> doc_root d = Some (P, l) ->
         regular s0 frags0 P0 (fun x => In x l0) -> labels_apart s0 frags0 P0 (fun x => In x l0) ->
         regular s frags P (fun x => In x l) -> tagged_once s frags P (fun x => In x l) ->
         answers_more js0 s0 frags0 js s frags P0 (fun x => In x l0) P (fun x => In x l) ->
         exists G0 G,
           (forall x, imports_from M0 gm x -> module_declares G0 x /\ exists gtext, f0' (env_locate e0 (globals_path c (rc_root_dir rc0))) = Ok gtext /\ only_reads gtext G0) /\
           (forall x, imports_from M gm x -> module_declares G x /\ exists gtext, f' (env_locate e (globals_path c (rc_root_dir rc))) = Ok gtext /\ only_reads gtext G) /\
           forall amb v, (exists x n, client "DataOf" M x /\ module_accepts gm G M amb n x v) -> exists x n, client "DataOf" M0 x /\ module_accepts gm G0 M0 amb n x v) /\
      (* what is asked for *)
      (inputs_proper js0 -> inputs_proper js -> flat_inputs js0 -> flat_inputs js ->
       (forall x, input_typename c js0 x -> ~ declares_name (def_name d0) x) -> (forall x, input_typename c js x -> ~ declares_name (def_name d) x) ->
       requires_less js0 js -> asks_less (doc_vars d0) (doc_vars d) ->
         (doc_vars d0 = [] -> forall x, client "VariablesOf" M0 x <-> x = "never") /\
         (doc_vars d0 <> [] -> exists G0 G,
           (forall x, imports_from M0 gm x -> module_declares G0 x /\ exists gtext, f0' (env_locate e0 (globals_path c (rc_root_dir rc0))) = Ok gtext /\ only_reads gtext G0) /\
           (forall x, imports_from M gm x -> module_declares G x /\ exists gtext, f' (env_locate e (globals_path c (rc_root_dir rc))) = Ok gtext /\ only_reads gtext G) /\
           forall amb v, (exists x n, client "VariablesOf" M0 x /\ module_allows gm G0 M0 amb n x v) -> exists x n, client "VariablesOf" M x /\ module_allows gm G M amb n x v)).
Proof.
  intros ck complaint0 complaint jerr0 jerr help0 help version0 version fuel0 fuel wo0 wo its0 its argv0 argv a0 a nc0 nc sched0 sched cf0 cf
    stext0 stext j0 j js0 s0 js s out0 out f0' f' rc0 rc c e0 e f0 f gm Dk0 Dk Sq0 Cn0 Cm0 Sy0 Sq Cn Cm Sy Se0 Se Es0 Th0 Sj0 Fi0 Es Th Sj Fi Ec Dm Gm Al0 Al H0 H
    path0 contents0 d0 path contents d Sp0 Er0 Ts0 Iq0 Nr0 Sp Er Ts Iq Nr.
  assert (Ne : cc_docnode_module c <> cc_globals_module c) by (rewrite Dm; intros E; apply Gm; symmetry; exact E).
  assert (Ec' : cc_docnode_module (cconfig_of rc0) = nodes_module) by (rewrite Ec; exact Dm).
  assert (Q0 : exists text M, f0' (out_loc e0 path0) = Ok text /\ only_reads text M /\
     forall x, (client "DataOf" M x <-> x = def_name d0) /\ (client "VariablesOf" M x <-> x = variables_name d0)).
  { pose proof Dk0 as [Hd Hs].
    assert (Pa : parse_args argv0 = URun a0 nc0) by (apply PropC65.C65_exact; eauto).
    assert (Hq : qlc fuel0 wo0 a0 sched0 = Exited 0 out0 f0') by (unfold qlc_command in H0; rewrite Pa in H0; exact H0).
    assert (Sc : wo_schema wo0 (rc_schema_path rc0) = SRDecoded js0) by (rewrite (Hs _ _ Es0); apply PropC67.C67_schema; eauto).
    assert (Pn : forall text ds d, env_parse e0 text = Ok ds -> In d ds -> parsed_named d).
    { intros text ds d1 E I. rewrite Hd in E. destruct (parse_query ck text) as [ds'|] eqn:Ep; [|discriminate]. injection E as ->. eapply C69_named; eauto. }
    destruct (C76_run fuel0 wo0 a0 sched0 cf0 js0 s0 out0 f0' Se0 Sc Ec' Pn Hq path0 Sp0) as (contents' & d' & Er' & Ep & K).
    assert (contents' = contents0) by (assert (X : f0 (env_locate e0 path0) = Ok contents') by exact Er'; congruence). subst contents'.
    assert (d' = d0) by (rewrite Hd in Ep; pose proof Ts0 as T; apply C69_text in T; rewrite T in Ep; congruence). subst d'.
    destruct (K Nr0) as (text & M & Et & Rt & Q & _). exists text, M. split; [exact Et|]. split; [exact Rt|]. exact (Q (or_introl Iq0)). }
  assert (Q : exists text M, f' (out_loc e path) = Ok text /\ only_reads text M /\
     forall x, (client "DataOf" M x <-> x = def_name d) /\ (client "VariablesOf" M x <-> x = variables_name d)).
  { pose proof Dk as [Hd Hs].
    assert (Pa : parse_args argv = URun a nc) by (apply PropC65.C65_exact; eauto).
    assert (Hq : qlc fuel wo a sched = Exited 0 out f') by (unfold qlc_command in H; rewrite Pa in H; exact H).
    assert (Sc : wo_schema wo (rc_schema_path rc) = SRDecoded js) by (rewrite (Hs _ _ Es); apply PropC67.C67_schema; eauto).
    assert (Pn : forall text ds d, env_parse e text = Ok ds -> In d ds -> parsed_named d).
    { intros text ds d1 E I. rewrite Hd in E. destruct (parse_query ck text) as [ds'|] eqn:Ep; [|discriminate]. injection E as ->. eapply C69_named; eauto. }
    destruct (C76_run fuel wo a sched cf js s out f' Se Sc Dm Pn Hq path Sp) as (contents' & d' & Er' & Ep & K).
    assert (contents' = contents) by (assert (X : f (env_locate e path) = Ok contents') by exact Er'; congruence). subst contents'.
    assert (d' = d) by (rewrite Hd in Ep; pose proof Ts as T; apply C69_text in T; rewrite T in Ep; congruence). subst d'.
    destruct (K Nr) as (text & M & Et & Rt & Q & _). exists text, M. split; [exact Et|]. split; [exact Rt|]. exact (Q (or_introl Iq)). }
  destruct Q0 as (text0 & M0 & Et0 & Rt0 & Q0). destruct Q as (text & M & Et & Rt & Q).
  exists text0, M0, text, M. split; [exact Et0|]. split; [exact Rt0|]. split; [exact Et|]. split; [exact Rt|]. split.
  - intros Pw0 Pw Lk Nv0 Nv Le0 Le frags0 P0 l0 frags P l If0 Dr0 If Dr R0 Lb0 R Tg Am.
    destruct (C89_text_partial ck complaint0 complaint jerr0 jerr help0 help version0 version fuel0 fuel wo0 wo its0 its argv0 argv a0 a nc0 nc sched0 sched cf0 cf
      stext0 stext j0 j js0 s0 js s out0 out f0' f' Dk0 Dk Sq0 Cn0 Cm0 Sy0 Sq Cn Cm Sy Se0 Se Es0 Th0 Sj0 Fi0 Es Th Sj Fi Ec Pw0 Pw Lk Al0 Al Ne H0 H
      path0 contents0 d0 frags0 P0 l0 path contents d frags P l Sp0 Er0 Ts0 If0 (query_answers _ Iq0) Dr0 Sp Er Ts If (query_answers _ Iq) Dr Nv0 Nv Nr0 Le0 Nr Le R0 Lb0 R Tg Am)
      as (t0 & M1 & G0 & n0 & r0 & t & M2 & G & n & r & E0 & D0 & Im0 & _ & _ & E1 & D1 & Im & _ & _ & A).
    assert (t0 = text0) by (assert (X : f0' (out_loc e0 path0) = Ok t0) by exact E0; congruence). subst t0.
    assert (t = text) by (assert (X : f' (out_loc e path) = Ok t) by exact E1; congruence). subst t.
    assert (M1 = M0) by (apply Rt0, D0; reflexivity). subst M1. assert (M2 = M) by (apply Rt, D1; reflexivity). subst M2.
    exists G0, G. split; [exact Im0|]. split; [exact Im|]. intros amb v (x & k & Cl & Ac). apply Q in Cl. subst x.
    destruct (A amb k v Ac) as (k' & Ac'). exists (def_name d0), k'. split; [apply Q0; reflexivity|exact Ac'].
  - intros Ip0 Ip Fl0 Fl Le0 Le Rl Al1. split.
    + intros E x. destruct (Q0 x) as [_ V]. unfold variables_name in V. rewrite E in V. exact V.
    + intros Nv0. pose proof (asks_some _ _ Al1 Nv0) as Nv.
      assert (Vn0 : variables_name d0 = def_name d0 +++ "Variables") by (unfold variables_name; destruct (doc_vars d0); [congruence|reflexivity]).
      assert (Vn : variables_name d = def_name d +++ "Variables") by (unfold variables_name; destruct (doc_vars d); [congruence|reflexivity]).
      destruct (C90_text_partial ck complaint0 complaint jerr0 jerr help0 help version0 version fuel0 fuel wo0 wo its0 its argv0 argv a0 a nc0 nc sched0 sched cf0 cf
        stext0 stext j0 j js0 s0 js s out0 out f0' f' Dk0 Dk Sq0 Cn0 Cm0 Sy0 Sq Cn Cm Sy Se0 Se Es0 Th0 Sj0 Fi0 Es Th Sj Fi Ec Ip0 Ip Fl0 Fl Al0 Al Ne H0 H
        path0 contents0 d0 path contents d Sp0 Er0 Ts0 Sp Er Ts Nr0 Le0 Nr Le Nv0 Nv)
        as (t0 & M1 & G0 & n0 & t & M2 & G & n & E0 & D0 & Im0 & _ & _ & E1 & D1 & Im & _ & _ & A).
      assert (t0 = text0) by (assert (X : f0' (out_loc e0 path0) = Ok t0) by exact E0; congruence). subst t0.
      assert (t = text) by (assert (X : f' (out_loc e path) = Ok t) by exact E1; congruence). subst t.
      assert (M1 = M0) by (apply Rt0, D0; reflexivity). subst M1. assert (M2 = M) by (apply Rt, D1; reflexivity). subst M2.
      exists G0, G. split; [exact Im0|]. split; [exact Im|]. intros amb v (x & k & Cl & Av). apply Q0 in Cl. rewrite Vn0 in Cl. subst x.
      destruct (proj1 (A amb k v Av) Rl Al1) as (k' & Av'). exists (def_name d +++ "Variables"), k'. split; [apply Q; rewrite Vn; reflexivity|exact Av'].
Qed.
Print Assumptions C91_text_partial.

(** ** Non-vacuity: the worlds of C89 and C90 *)
Lemma client_past out f' text M : qlc_command "" "" 30 disk_world ["--num-threads"; "1"] (repeat 0 90) = Exited 0 out f' ->
  f' "./g.graphql.d.ts" = Ok text -> only_reads text M -> client "DataOf" M "Q".
Proof.
  intros H Et R. rewrite (command_runs "" "" 30 disk_world ["--num-threads"; "1"] (repeat 0 90) (args_threads 1) false eq_refl) in H.
  destruct (C76_run 30 disk_world (args_threads 1) (repeat 0 90) config_default farm_json farm out f') with (path := "./g.graphql")
    as (contents & d & Ec & Ep & K).
  - exact disk_settled.
  - exact farm_text_read.
  - reflexivity.
  - intros t ds d E J. cbn [disk_world wo_env text_env env_parse] in E. destruct (parse_query lenient t) as [ds'|] eqn:Ep; [|discriminate]. injection E as ->. eapply C69_named; eauto.
  - exact H.
  - apply PropC35.pair_is_source. auto.
  - assert (X : wo_fs disk_world (env_locate (wo_env disk_world) "./g.graphql") = Ok barn_query) by (vm_compute; reflexivity).
    rewrite X in Ec. injection Ec as <-. clear X. vm_compute in Ep. injection Ep as <-.
    destruct K as (text' & M' & Et' & R' & Q & _); [apply reservedb_ok; reflexivity|].
    assert (text' = text) by (assert (X : f' "./g.graphql.d.ts" = Ok text') by exact Et'; congruence). subst text'.
    assert (M' = M) by (apply R; apply R'; reflexivity). subst M'. exact (proj2 (proj1 (Q (or_introl Logic.I) "Q")) eq_refl).
Qed.
Example C91_nonvacuous : exists out0 f0' out f' text0 M0 G0 text M G,
  qlc_command "" "" 30 past_world ["--num-threads"; "1"] (repeat 0 90) = Exited 0 out0 f0' /\
  qlc_command "" "" 30 disk_world ["--num-threads"; "1"] (repeat 0 90) = Exited 0 out f' /\
  f0' "./g.graphql.d.ts" = Ok text0 /\ only_reads text0 M0 /\ f' "./g.graphql.d.ts" = Ok text /\ only_reads text M /\ text0 <> text /\
  (exists x n, client "DataOf" M x /\ module_accepts "graphql-globals" G M disk_amb n x good_response) /\
  exists x n, client "DataOf" M0 x /\ module_accepts "graphql-globals" G0 M0 disk_amb n x good_response.
Proof.
  assert (Pa : parse_args ["--num-threads"; "1"] = URun (args_threads 1) false) by reflexivity.
  apply PropC65.C65_exact in Pa. destruct Pa as (its & Sp & Cn & Cm & Sy).
  assert (X : exists j, text_holds farm_text j /\ says_schema j farm_json /\ fits farm_json) by (apply (PropC67.C67_schema ""); exact farm_text_read).
  destruct X as (j & Th & Sj & Fi).
  assert (X : exists j, text_holds past_text j /\ says_schema j past_json /\ fits past_json) by (apply (PropC67.C67_schema ""); exact past_text_read).
  destruct X as (j0 & Th0 & Sj0 & Fi0).
  assert (H : exists out f', qlc_command "" "" 30 disk_world ["--num-threads"; "1"] (repeat 0 90) = Exited 0 out f' /\
    exists text is, f' "./g.graphql.d.ts" = Ok text /\ only_reads text is /\ In (ItImport ["Mood"; "Size"] "graphql-globals") is).
  { do 2 eexists. split; [vm_compute; reflexivity|]. do 2 eexists. split; [vm_compute; reflexivity|].
    split; [unfold only_reads; apply (reads_once 2000); vm_compute; reflexivity|]. right; left; reflexivity. }
  destruct H as (out & f' & H & text0 & is & Et0 & R0 & I0).
  assert (H0 : exists out0 f0', qlc_command "" "" 30 past_world ["--num-threads"; "1"] (repeat 0 90) = Exited 0 out0 f0').
  { do 2 eexists. vm_compute. reflexivity. }
  destruct H0 as (out0 & f0' & H0).
  assert (Ne : forall t t1, qlc_command "" "" 30 past_world ["--num-threads"; "1"] (repeat 0 90) = Exited 0 out0 f0' -> f0' "./g.graphql.d.ts" = Ok t ->
    qlc_command "" "" 30 disk_world ["--num-threads"; "1"] (repeat 0 90) = Exited 0 out f' -> f' "./g.graphql.d.ts" = Ok t1 -> t <> t1).
  { clear. intros t t1 H0 E0 H1 E1. vm_compute in H0, H1. injection H0 as <- <-. injection H1 as <- <-. vm_compute in E0, E1. injection E0 as <-. injection E1 as <-. discriminate. }
  assert (Dk : on_disk lenient (fun _ => "syntax error") "" disk_world).
  { split; [reflexivity|]. intros p t E. cbn [disk_world wo_schema]. cbn [disk_world wo_fs wo_env] in E. change (disk_files p = Ok t) in E. rewrite E. reflexivity. }
  assert (Dk0 : on_disk lenient (fun _ => "syntax error") "" past_world).
  { split; [reflexivity|]. intros p t E. cbn [past_world wo_schema]. cbn [past_world wo_fs wo_env] in E. change (past_files p = Ok t) in E. rewrite E. reflexivity. }
  assert (Al : aliases_apart (cconfig_of (merge_config (wo_ncpus disk_world) (args_threads 1) config_default)) farm_json).
  { intros n x _ W. cbn in W. subst x. split; [cbn; intuition discriminate|]. intros y L. apply last_in in L. destruct L as [J En]. cbn in J.
    repeat (destruct J as [<-|J]; [discriminate En|]). destruct J. }
  assert (Al0 : aliases_apart (cconfig_of (merge_config (wo_ncpus disk_world) (args_threads 1) config_default)) past_json).
  { intros n x _ W. cbn in W. subst x. split; [cbn; intuition discriminate|]. intros y L. apply last_in in L. destruct L as [J En]. cbn in J.
    repeat (destruct J as [<-|J]; [discriminate En|]). destruct J. }
  assert (Rs : response farm_json farm [("PetName", disk_fragment)] (active_of always) no_custom "Query" disk_sels good_response).
  { exists 8, "Query". split; [apply possibles_ok; left; reflexivity|]. apply respb_ok. vm_compute. reflexivity. }
  destruct (C72_text_partial lenient (fun _ => "syntax error") "" "" "" 30 disk_world its ["--num-threads"; "1"] (args_threads 1) false (repeat 0 90)
    config_default farm_text j farm_json farm out f' Dk Sp Cn Cm Sy disk_settled eq_refl Th Sj Fi farm_wrappers Al)
    with (path := "./g.graphql") (contents := barn_query) (d := disk_doc) (frags := [("PetName", disk_fragment)]) (P := "Query") (l := disk_sels)
         (active := active_of always) (custom := no_custom) (amb := disk_amb) as (text' & M' & G' & _ & _ & Et' & R' & Im' & _ & _ & A').
  - discriminate.
  - exact H.
  - apply PropC35.pair_is_source. auto.
  - reflexivity.
  - apply C69_text. vm_compute. reflexivity.
  - exact disk_fragments.
  - reflexivity.
  - reflexivity.
  - apply reservedb_ok. reflexivity.
  - constructor.
  - exact farm_leaves.
  - exact disk_surroundings.
  - exact disk_regular.
  - exact disk_labels.
  - intros x _. apply all_unconditional.
  - intros n fd _. apply Forall_forall. intros x _. apply all_unconditional.
  - destruct (C91_text_partial lenient (fun _ => "syntax error") (fun _ => "syntax error") "" "" "" "" "" "" 30 30 past_world disk_world its its ["--num-threads"; "1"] ["--num-threads"; "1"]
      (args_threads 1) (args_threads 1) false false (repeat 0 90) (repeat 0 90) config_default config_default past_text farm_text j0 j past_json past farm_json farm out0 out f0' f'
      Dk0 Dk Sp Cn Cm Sy Sp Cn Cm Sy past_settled disk_settled eq_refl Th0 Sj0 Fi0 eq_refl Th Sj Fi eq_refl)
      with (path0 := "./g.graphql") (contents0 := scant_query) (d0 := scant_doc) (path := "./g.graphql") (contents := barn_query) (d := disk_doc)
      as (text1 & M1 & text & M & Et1 & R1 & Et & R & A & _).
    + reflexivity.
    + discriminate.
    + exact Al0.
    + exact Al.
    + exact H0.
    + exact H.
    + apply PropC35.pair_is_source. auto.
    + reflexivity.
    + apply C69_text. vm_compute. reflexivity.
    + exact Logic.I.
    + apply reservedb_ok. reflexivity.
    + apply PropC35.pair_is_source. auto.
    + reflexivity.
    + apply C69_text. vm_compute. reflexivity.
    + exact Logic.I.
    + apply reservedb_ok. reflexivity.
    + destruct (A past_wrappers farm_wrappers (pm_leaves _ _ _ _ past_promises) (NoDup_nil _) (NoDup_nil _) past_leaves farm_leaves [("PetName", scant_fragment)] "Query" scant_sels
        [("PetName", disk_fragment)] "Query" disk_sels past_fragments eq_refl disk_fragments eq_refl past_regular past_labels disk_regular disk_tagged past_more) as (G1 & G & _ & Im & B). clear A.
      assert (Cl : client "DataOf" M "Q") by (eapply client_past; [exact H|exact Et|exact R]).
      exists out0, f0', out, f', text1, M1, G1, text, M, G. split; [exact H0|]. split; [exact H|]. split; [exact Et1|]. split; [exact R1|]. split; [exact Et|]. split; [exact R|].
      split; [exact (Ne _ _ H0 Et1 H Et)|].
      assert (E1 : text = text0) by (assert (X : f' "./g.graphql.d.ts" = Ok text) by exact Et; congruence).
      assert (E2 : text' = text0) by (assert (X : f' "./g.graphql.d.ts" = Ok text') by exact Et'; congruence). subst text text'.
      assert (E1 : M = is) by (apply R0; apply R; reflexivity). assert (E2 : M' = is) by (apply R0; apply R'; reflexivity). subst M M'.
      assert (Ii : imports_from is "graphql-globals" "Mood") by (exists ["Mood"; "Size"]; split; [exact I0|left; reflexivity]).
      destruct (Im "Mood" Ii) as (_ & gt & Eg & Rg). destruct (Im' "Mood" Ii) as (_ & gt' & Eg' & Rg').
      assert (E1 : gt' = gt).
      { match type of Eg with f' ?p = _ => assert (Y : f' p = Ok gt') by exact Eg' end. congruence. }
      subst gt'. assert (E1 : G' = G) by (apply Rg; apply Rg'; reflexivity). subst G'.
      destruct (A' good_response Rs) as (n & An).
      assert (Acc : exists x n, client "DataOf" is x /\ module_accepts "graphql-globals" G is disk_amb n x good_response) by (exists "Q", n; split; [exact Cl|exact An]).
      split; [exact Acc|]. exact (B disk_amb good_response Acc).
Qed.

Lemma client_stall out f' text M : qlc_command "" "" 30 stall_world ["--num-threads"; "1"] (repeat 0 90) = Exited 0 out f' ->
  f' "./x.graphql.d.ts" = Ok text -> only_reads text M -> client "VariablesOf" M "QVariables".
Proof.
  intros H Et R. rewrite (command_runs "" "" 30 stall_world ["--num-threads"; "1"] (repeat 0 90) (args_threads 1) false eq_refl) in H.
  destruct (C76_run 30 stall_world (args_threads 1) (repeat 0 90) config_default stall_json stall out f') with (path := "./x.graphql")
    as (contents & d & Ec & Ep & K).
  - exact stall_settled.
  - exact stall_text_read.
  - reflexivity.
  - intros t ds d E J. cbn [stall_world wo_env text_env env_parse] in E. destruct (parse_query lenient t) as [ds'|] eqn:Ep; [|discriminate]. injection E as ->. eapply C69_named; eauto.
  - exact H.
  - apply PropC43.C43_nonvacuous.
  - assert (X : wo_fs stall_world (env_locate (wo_env stall_world) "./x.graphql") = Ok stall_query) by (vm_compute; reflexivity).
    rewrite X in Ec. injection Ec as <-. clear X. vm_compute in Ep. injection Ep as <-.
    destruct K as (text' & M' & Et' & R' & Q & _); [apply reservedb_ok; reflexivity|].
    assert (text' = text) by (assert (X : f' "./x.graphql.d.ts" = Ok text') by exact Et'; congruence). subst text'.
    assert (M' = M) by (apply R; apply R'; reflexivity). subst M'. exact (proj2 (proj2 (Q (or_introl Logic.I) "QVariables")) eq_refl).
Qed.
Example C91_nonvacuous_variables : exists M0 G0 M G, leaves stall_world M0 G0 /\ leaves shop_world M G /\
  (exists x n, client "VariablesOf" M0 x /\ module_allows "graphql-globals" G0 M0 disk_amb n x stall_request) /\
  exists x n, client "VariablesOf" M x /\ module_allows "graphql-globals" G M disk_amb n x stall_request.
Proof.
  destruct stall_exact as (M0 & G0 & L0 & A0). destruct shop_exact as (M & G & L & A). exists M0, G0, M, G. split; auto. split; auto.
  assert (Pa : parse_args ["--num-threads"; "1"] = URun (args_threads 1) false) by reflexivity.
  apply PropC65.C65_exact in Pa. destruct Pa as (its & Sp & Cn & Cm & Sy).
  assert (X : exists j, text_holds shop_text j /\ says_schema j shop_json /\ fits shop_json) by (apply (PropC67.C67_schema ""); exact shop_text_read).
  destruct X as (j & Th & Sj & Fi).
  assert (X : exists j, text_holds stall_text j /\ says_schema j stall_json /\ fits stall_json) by (apply (PropC67.C67_schema ""); exact stall_text_read).
  destruct X as (j0 & Th0 & Sj0 & Fi0).
  assert (Dk : on_disk lenient (fun _ => "syntax error") "" shop_world).
  { split; [reflexivity|]. intros p t E. cbn [shop_world wo_schema]. cbn [shop_world wo_fs wo_env] in E. change (shop_files p = Ok t) in E. rewrite E. reflexivity. }
  assert (Dk0 : on_disk lenient (fun _ => "syntax error") "" stall_world).
  { split; [reflexivity|]. intros p t E. cbn [stall_world wo_schema]. cbn [stall_world wo_fs wo_env] in E. change (stall_files p = Ok t) in E. rewrite E. reflexivity. }
  pose proof L as (out & f' & text & gtext & H & Et & Rt & Eg & Rg). pose proof L0 as (out0 & f0' & text0 & gtext0 & H0 & Et0 & Rt0 & Eg0 & Rg0).
  assert (I : imports_from M "graphql-globals" "Filter").
  { assert (Y : exists is, leaves shop_world is G /\ imports_from is "graphql-globals" "Filter").
    { exists M. split; auto. assert (Z : exists out f' text is, qlc_command "" "" 30 shop_world ["--num-threads"; "1"] (repeat 0 90) = Exited 0 out f' /\
        f' "./x.graphql.d.ts" = Ok text /\ only_reads text is /\ In (ItImport ["Filter"] "graphql-globals") is).
      { do 4 eexists. split; [vm_compute; reflexivity|]. split; [vm_compute; reflexivity|]. split; [unfold only_reads; apply (reads_once 2000); vm_compute; reflexivity|]. right; left; reflexivity. }
      destruct Z as (o2 & f2 & t2 & is & H2 & E2 & R2 & I2). assert (f2 = f') by (rewrite H in H2; congruence). subst f2. assert (t2 = text) by congruence. subst t2.
      assert (M = is) by (apply R2, Rt; reflexivity). subst M. exists ["Filter"]. split; [exact I2|left; reflexivity]. }
    destruct Y as (is & Li & I). destruct (leaves_fun _ _ _ _ _ L Li) as [-> _]. exact I. }
  assert (I0 : imports_from M0 "graphql-globals" "Filter").
  { assert (Z : exists out f' text is, qlc_command "" "" 30 stall_world ["--num-threads"; "1"] (repeat 0 90) = Exited 0 out f' /\
        f' "./x.graphql.d.ts" = Ok text /\ only_reads text is /\ In (ItImport ["Filter"] "graphql-globals") is).
    { do 4 eexists. split; [vm_compute; reflexivity|]. split; [vm_compute; reflexivity|]. split; [unfold only_reads; apply (reads_once 2000); vm_compute; reflexivity|]. right; left; reflexivity. }
    destruct Z as (o2 & f2 & t2 & is & H2 & E2 & R2 & I2). assert (f2 = f0') by (rewrite H0 in H2; congruence). subst f2. assert (t2 = text0) by congruence. subst t2.
    assert (M0 = is) by (apply R2, Rt0; reflexivity). subst M0. exists ["Filter"]. split; [exact I2|left; reflexivity]. }
  destruct (C91_text_partial lenient (fun _ => "syntax error") (fun _ => "syntax error") "" "" "" "" "" "" 30 30 stall_world shop_world its its ["--num-threads"; "1"] ["--num-threads"; "1"]
    (args_threads 1) (args_threads 1) false false (repeat 0 90) (repeat 0 90) config_default config_default stall_text shop_text j0 j stall_json stall shop_json shop out0 out f0' f'
    Dk0 Dk Sp Cn Cm Sy Sp Cn Cm Sy stall_settled shop_settled eq_refl Th0 Sj0 Fi0 eq_refl Th Sj Fi eq_refl)
    with (path0 := "./x.graphql") (contents0 := stall_query) (d0 := stall_doc) (path := "./x.graphql") (contents := shop_query) (d := shop_doc)
    as (t0 & M1 & t & M2 & E1 & R1 & E2 & R2 & _ & B).
  - reflexivity.
  - discriminate.
  - exact stall_aliases.
  - exact shop_aliases.
  - exact H0.
  - exact H.
  - apply PropC43.C43_nonvacuous.
  - reflexivity.
  - apply C69_text. vm_compute. reflexivity.
  - exact Logic.I.
  - apply reservedb_ok. reflexivity.
  - apply PropC43.C43_nonvacuous.
  - reflexivity.
  - apply C69_text. vm_compute. reflexivity.
  - exact Logic.I.
  - apply reservedb_ok. reflexivity.
  - destruct (B stall_proper shop_proper stall_flat shop_flat stall_names shop_names stall_less stall_asks) as (_ & B'). clear B.
    destruct B' as (G1 & G2 & Im1 & Im2 & B); [discriminate|].
    assert (X1 : t0 = text0) by (assert (X : f0' "./x.graphql.d.ts" = Ok t0) by exact E1; congruence). subst t0.
    assert (X2 : t = text) by (assert (X : f' "./x.graphql.d.ts" = Ok t) by exact E2; congruence). subst t.
    assert (M1 = M0) by (apply Rt0, R1; reflexivity). subst M1. assert (M2 = M) by (apply Rt, R2; reflexivity). subst M2.
    destruct (Im1 _ I0) as (_ & g0 & Eq0 & Rq0). destruct (Im2 _ I) as (_ & g & Eq & Rq).
    assert (g0 = gtext0) by (assert (X : f0' "./graphql-globals.ts" = Ok g0) by exact Eq0; congruence). subst g0.
    assert (g = gtext) by (assert (X : f' "./graphql-globals.ts" = Ok g) by exact Eq; congruence). subst g.
    assert (G1 = G0) by (apply Rg0, Rq0; reflexivity). subst G1. assert (G2 = G) by (apply Rg, Rq; reflexivity). subst G2.
    destruct (proj1 (A0 shop_scalar no_default disk_amb stall_request) (shop_loose _) (stall_requested _)) as (n & An).
    assert (Acc : exists x n, client "VariablesOf" M0 x /\ module_allows "graphql-globals" G0 M0 disk_amb n x stall_request).
    { exists "QVariables", n. split; [eapply client_stall; eassumption|exact An]. }
    split; [exact Acc|exact (B disk_amb stall_request Acc)].
Qed.
