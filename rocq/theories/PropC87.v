(** C87: renaming a document renames its types, and nothing else. *)
From Verif Require Import PlaceFacts LinkData LinkExt IntroCheck ShareWorlds GlobalRead JsonCheck WrittenEq Package RespFacts RunFacts GlobalText PropC56 PropC04 PropC49 PropC18 PropC35 LinkFacts.
From Verif Require Import Gql Json Args SpecGtext SpecJson SpecJtext GlayoutFacts PropC69 PropC72 RecastFacts.
From Verif Require SpecArgs PropC07 PropC48 PropC65 PropC67.
From Verif Require Import PropC84 RenameFacts.

(** The printer: whatever the name of the document, the same error, or texts of the same form with the same types of the globals file *)
Theorem C87_printed : forall c o s op,
  (exists e, forall n, compile_ir c o s (call n op) = Err e) \/
  exists t g, forall n, compile_ir c o s (call n op) = Ok {| co_contents := fill n t; co_globals := g |}.
Proof. exact compile_uniform. Qed.
Print Assumptions C87_printed.

(** The module of a document: under every name it compiles with the same warnings to a text of the same form *)
Theorem C87_module : forall fuel cx c o d ws co, document_file fuel cx c o d ws co ->
  exists t, co_contents co = fill (def_name d) t /\
    forall n, document_file fuel cx c o (under_name n d) ws {| co_contents := fill n t; co_globals := co_globals co |}.
Proof.
  intros fuel cx c o d ws co (op & H & Hi).
  assert (Nd : forall p l, d <> DOp (OpSelectionSet p l)) by (intros p l ->; discriminate H).
  destruct (compile_called fuel cx d Nd) as [[X _]|[(ws1 & es & X & _)|(ws1 & op1 & X & En & K)]]; rewrite H in X; try discriminate. injection X as <- <-.
  assert (Ec : call (def_name d) op = op) by (rewrite <- En; destruct op; reflexivity).
  destruct (compile_uniform c o (cx_schema cx) op) as [(e & E)|(t & g & E)].
  - specialize (E (def_name d)). rewrite Ec, Hi in E. discriminate E.
  - exists t. pose proof (E (def_name d)) as E1. rewrite Ec, Hi in E1. injection E1 as ->. cbn [co_contents co_globals]. split; [reflexivity|].
    intros n. exists (call n op). split; [apply K|apply E].
Qed.
Print Assumptions C87_module.

(** A document that is rejected is rejected under every name, with the same errors *)
Theorem C87_rejected : forall fuel cx c o d,
  (forall ws es, compile_definition fuel cx d = Some (ws, Err es) -> forall n, compile_definition fuel cx (under_name n d) = Some (ws, Err es)) /\
  (forall ws op e, compile_definition fuel cx d = Some (ws, Ok op) -> compile_ir c o (cx_schema cx) op = Err e ->
     forall n, exists op', compile_definition fuel cx (under_name n d) = Some (ws, Ok op') /\ compile_ir c o (cx_schema cx) op' = Err e).
Proof.
  intros fuel cx c o d.
  assert (G : (exists p l, d = DOp (OpSelectionSet p l)) \/ forall p l, d <> DOp (OpSelectionSet p l)).
  { destruct d as [[p l|]|]; [left; eauto|right; discriminate|right; discriminate]. }
  destruct G as [(p & l & ->)|Nd].
  { split; [auto|]. intros ws op e H. discriminate H. }
  destruct (compile_called fuel cx d Nd) as [[X Y]|[(ws1 & es1 & X & Y)|(ws1 & op1 & X & En & K)]];
    (split; [intros ws es H|intros ws op e H Hi]); rewrite H in X; try discriminate; injection X as <- <-; [exact Y|].
  intros n. exists (call n op). split; [apply K|].
  destruct (compile_uniform c o (cx_schema cx) op) as [(e1 & E)|(t & g & E)].
  - pose proof (E n) as E2. specialize (E (op_name op)). replace (call (op_name op) op) with op in E by (destruct op; reflexivity).
    rewrite Hi in E. injection E as ->. exact E2.
  - specialize (E (op_name op)). replace (call (op_name op) op) with op in E by (destruct op; reflexivity). rewrite Hi in E. discriminate E.
Qed.
Print Assumptions C87_rejected.

(** ** Two runs *)
(** The source [path'] of one project asks for the same as the source [path] of another, possibly under another name *)
Definition renamed_source (s : schema) (c c' : cconfig) (e e' : env) (f f' : fs) (path path' n n' : string) : Prop :=
  exists contents d frags P l contents' d' frags' l',
    f (env_locate e path) = Ok contents /\ env_parse e contents = Ok [d] /\ PropC07.imported_fragments e f c path contents frags /\
    f' (env_locate e' path') = Ok contents' /\ env_parse e' contents' = Ok [d'] /\ PropC07.imported_fragments e' f' c' path' contents' frags' /\
    doc_root d = Some (P, l) /\ is_subscription d = false /\ Rewrite.settled s frags P (fun x => In x l) /\ def_name d = n /\
    same_head (under_name n' d) d' /\ doc_root d' = Some (P, l') /\ collects_same s frags frags' same_data P (fun x => In x l) (fun x => In x l').

Lemma runs_renamed : forall fuel fuel' wo wo' a a' sched sched' cf cf' js s out out' f' g',
  let rc := merge_config (wo_ncpus wo) a cf in
  let rc' := merge_config (wo_ncpus wo') a' cf' in
  let c := cconfig_of rc in
  let c' := cconfig_of rc' in
  let e := wo_env wo in
  let e' := wo_env wo' in
  LinkFacts.settled wo a cf js s -> LinkFacts.settled wo' a' cf' js s -> same_output_options c c' ->
  wo_schema wo (rc_schema_path rc) = SRDecoded js -> wo_schema wo' (rc_schema_path rc') = SRDecoded js ->
  (forall text ds d, env_parse e text = Ok ds -> In d ds -> parsed_named d) ->
  (forall text ds d, env_parse e' text = Ok ds -> In d ds -> parsed_named d) ->
  qlc fuel wo a sched = Exited 0 out f' -> qlc fuel' wo' a' sched' = Exited 0 out' g' ->
  forall path path' n n', is_source (wo_listing wo) (rc_root_dir rc) path -> is_source (wo_listing wo') (rc_root_dir rc') path' ->
    renamed_source s c c' e e' (wo_fs wo) (wo_fs wo') path path' n n' ->
    exists t g ms ms', f' (out_loc e path) = Ok (fill n t) /\ g' (out_loc e' path') = Ok (fill n' t) /\
      file_compiles fuel e (wo_fs wo) c s path ms {| co_contents := fill n t; co_globals := g |} /\
      file_compiles fuel' e' (wo_fs wo') c' s path' ms' {| co_contents := fill n' t; co_globals := g |}.
Proof.
  intros fuel fuel' wo wo' a a' sched sched' cf cf' js s out out' f' g' rc rc' c c' e e' Se Se' Ec Es Es' Pn Pn' H H' path path' nm nm' Sp Sp'
    (contents & d & frags & P & l & contents' & d' & frags' & l' & Er & Ep & If & Er' & Ep' & If' & Dr & Su & St & En & Sh & Dr' & Cs).
  pose proof Se as [_ In0 _ _ _ _ _ _ _ _ _]. pose proof (intro_consistent _ _ In0) as Co.
  destruct (run_compiled fuel wo a sched cf js s out f' Se Es Pn H) as (Outs & _).
  destruct (run_compiled fuel' wo' a' sched' cf' js s out' g' Se' Es' Pn' H') as (Outs' & _).
  destruct (Outs path Sp) as (x & d1 & fr & ws & co & A1 & A2 & A3 & A4 & A5 & A6 & A7 & A8 & _ & _ & ms & A9).
  destruct (Outs' path' Sp') as (x' & d1' & fr' & ws' & co' & B1 & B2 & B3 & B4 & B5 & B6 & B7 & B8 & _ & _ & ms' & B9).
  clear Outs Outs'. fold rc' in B3, B4, B9. fold c' in B3, B4, B9.
  assert (x = contents) by (assert (X : wo_fs wo (env_locate e path) = Ok x) by exact A1; congruence). subst x.
  assert (d1 = d) by (assert (X : env_parse e contents = Ok [d1]) by exact A2; congruence). subst d1.
  assert (x' = contents') by (assert (X : wo_fs wo' (env_locate e' path') = Ok x') by exact B1; congruence). subst x'.
  assert (d1' = d') by (assert (X : env_parse e' contents' = Ok [d1']) by exact B2; congruence). subst d1'.
  pose proof (fragments_agree _ _ _ _ _ _ _ A3 If) as Ag. pose proof (fragments_agree _ _ _ _ _ _ _ B3 If') as Ag'.
  destruct (A8 Su) as (P1 & l1 & Dr1 & _ & Fv). assert (Z : P1 = P /\ l1 = l) by (rewrite Dr in Dr1; injection Dr1; auto). destruct Z as [-> ->].
  assert (Dru : doc_root (under_name nm' d) = Some (P, l)) by (clear - Dr; destruct d as [[]|]; exact Dr).
  assert (Suu : is_subscription (under_name nm' d) = false) by (clear - Su; destruct d as [[|[]]|]; exact Su).
  assert (Su' : is_subscription d' = false) by (destruct (head_parts _ _ _ _ Sh Dru) as (l2 & _ & _ & _ & E & _); congruence).
  destruct (B8 Su') as (P2 & l2 & Dr2 & V2 & _). assert (Z : P2 = P /\ l2 = l') by (rewrite Dr' in Dr2; injection Dr2; auto). destruct Z as [-> ->].
  destruct (C87_module _ _ _ _ _ _ _ A4) as (t & Et & Kt). specialize (Kt nm'). rewrite En in Et.
  destruct (C84_module_partial fuel (file_ctx e c s path fr) (file_ctx e' c' s path' fr') c (suborder (env_order e path) [2; 0]) (suborder (env_order e' path') [2; 0])
    (under_name nm' d) d' ws {| co_contents := fill nm' t; co_globals := co_globals co |} P l l' Co A5 A6 B5 B6 eq_refl Kt Dru Suu Fv) as [_ K]; cbn [file_ctx cx_schema cx_frags] in *.
  - eapply settled_ext; [intros n; symmetry; apply Ag|exact St|tauto].
  - exact Sh.
  - exact Dr'.
  - exact V2.
  - eapply collects_ext; [intros n; symmetry; apply Ag|intros n; symmetry; apply Ag'|exact Cs|tauto|tauto].
  - destruct B4 as (op' & C1 & C2). destruct (K _ _ _ C1) as (op2 & E2 & C3). injection E2 as <-. cbn [file_ctx cx_schema] in C2.
    assert (co' = {| co_contents := fill nm' t; co_globals := co_globals co |})
      by (assert (Y : compile_ir c (suborder (env_order e' path') [2; 0]) s op' = Ok co') by (rewrite (placed_ir c c' Ec); exact C2); congruence). subst co'.
    exists t, (co_globals co), ms, ms'. replace {| co_contents := fill nm t; co_globals := co_globals co |} with co by (destruct co; cbn in *; congruence).
    rewrite <- Et. auto.
Qed.

(** Two projects, with the same schema and the same options for what is generated (the root directory and the prefix of
    import lines may be others).  A source of the one, and a source
    of the other that asks for the same under any name: their outputs differ in the name only *)
Theorem C87_run_partial : forall fuel fuel' wo wo' a a' sched sched' cf cf' js s out out' f' g',
  let rc := merge_config (wo_ncpus wo) a cf in
  let rc' := merge_config (wo_ncpus wo') a' cf' in
  let c := cconfig_of rc in
  let c' := cconfig_of rc' in
  let e := wo_env wo in
  let e' := wo_env wo' in
  LinkFacts.settled wo a cf js s -> LinkFacts.settled wo' a' cf' js s -> same_output_options c c' ->
  wo_schema wo (rc_schema_path rc) = SRDecoded js -> wo_schema wo' (rc_schema_path rc') = SRDecoded js ->
  (forall text ds d, env_parse e text = Ok ds -> In d ds -> parsed_named d) ->
  (forall text ds d, env_parse e' text = Ok ds -> In d ds -> parsed_named d) ->
  qlc fuel wo a sched = Exited 0 out f' -> qlc fuel' wo' a' sched' = Exited 0 out' g' ->
  (* one file *)
  (forall path path' n n', is_source (wo_listing wo) (rc_root_dir rc) path -> is_source (wo_listing wo') (rc_root_dir rc') path' ->
    renamed_source s c c' e e' (wo_fs wo) (wo_fs wo') path path' n n' ->
    exists t, f' (out_loc e path) = Ok (fill n t) /\ g' (out_loc e' path') = Ok (fill n' t)) /\
  (* all files: then the files of globals are the same, too *)
  ((forall path, is_source (wo_listing wo) (rc_root_dir rc) path -> exists path' n n', is_source (wo_listing wo') (rc_root_dir rc') path' /\
      renamed_source s c c' e e' (wo_fs wo) (wo_fs wo') path path' n n') ->
   (forall path', is_source (wo_listing wo') (rc_root_dir rc') path' -> exists path n n', is_source (wo_listing wo) (rc_root_dir rc) path /\
      renamed_source s c c' e e' (wo_fs wo) (wo_fs wo') path path' n n') ->
   (forall n, uses_global fuel e (wo_listing wo) c s (rc_root_dir rc) (wo_fs wo) n <-> uses_global fuel' e' (wo_listing wo') c' s (rc_root_dir rc') (wo_fs wo') n) /\
   ((exists n, uses_global fuel e (wo_listing wo) c s (rc_root_dir rc) (wo_fs wo) n) ->
    exists text, f' (env_locate e (globals_path c (rc_root_dir rc))) = Ok text /\ g' (env_locate e' (globals_path c' (rc_root_dir rc'))) = Ok text)).
Proof.
  intros fuel fuel' wo wo' a a' sched sched' cf cf' js s out out' f' g' rc rc' c c' e e' Se Se' Ec Es Es' Pn Pn' H H'.
  pose proof (runs_renamed fuel fuel' wo wo' a a' sched sched' cf cf' js s out out' f' g' Se Se' Ec Es Es' Pn Pn' H H') as K. fold rc rc' in K. fold c c' e e' in K.
  split.
  { intros path path' n n' Sp Sp' Ss. destruct (K path path' n n' Sp Sp' Ss) as (t & _ & _ & _ & A & B & _). eauto. }
  intros To From.
  assert (U : forall n, uses_global fuel e (wo_listing wo) c s (rc_root_dir rc) (wo_fs wo) n <-> uses_global fuel' e' (wo_listing wo') c' s (rc_root_dir rc') (wo_fs wo') n).
  { intros n. split; intros (path & ms & co & Sp & Fc & I).
    - destruct (To path Sp) as (path' & nm & nm' & Sp' & Ss). destruct (K path path' nm nm' Sp Sp' Ss) as (t & g & ms1 & ms1' & _ & _ & F & F').
      rewrite (compiles_once _ _ _ _ _ _ _ _ _ _ F Fc) in I. eexists path', ms1', _. split; [exact Sp'|]. split; [exact F'|exact I].
    - destruct (From path Sp) as (path' & nm & nm' & Sp' & Ss). destruct (K path' path nm nm' Sp' Sp Ss) as (t & g & ms1 & ms1' & _ & _ & F & F').
      rewrite (compiles_once _ _ _ _ _ _ _ _ _ _ F' Fc) in I. eexists path', ms1, _. split; [exact Sp'|]. split; [exact F|exact I]. }
  split; [exact U|]. intros Ex.
  pose proof Se as [Lc In0 Jn N S Gd Ho C _ _ Th]. pose proof Se' as [Lc' In0' Jn' N' S' Gd' Ho' C' _ _ Th']. pose proof (in_loaded _ _ In0) as L.
  assert (Ls : parse_schema (rc_schema_path rc) (wo_schema wo (rc_schema_path rc)) = Ok s) by (rewrite Es; cbn [parse_schema]; rewrite L; reflexivity).
  assert (Ls' : parse_schema (rc_schema_path rc') (wo_schema wo' (rc_schema_path rc')) = Ok s) by (rewrite Es'; cbn [parse_schema]; rewrite L; reflexivity).
  assert (G : exists text l ds, f' (env_locate e (globals_path c (rc_root_dir rc))) = Ok text /\ NoDup (List.map fst l) /\ sorted_by fst l /\
         (forall n t, In (n, t) l <-> (exists r, uses_global fuel e (wo_listing wo) c s (rc_root_dir rc) (wo_fs wo) r /\ SpecGlobal.leads s r n) /\ get_type s n = Some t) /\
         Forall2 (fun x d => def_text c (fst x) (snd x) d) l ds /\ text = header +++ join (nl +++ nl) ds).
  { destruct Th as [One|[Pos Fl]].
    - destruct (C49_end_to_end fuel wo a sched cf s out f' Lc Ls N S Gd Ho C One H) as (_ & B & _). destruct (B Ex) as (text & l & ds & B1 & B2 & B3 & B4 & B5 & B6 & _). exists text, l, ds. auto 8.
    - destruct (C49_flat fuel wo a sched cf s out f' Lc Ls N S Gd Ho C Pos Fl H) as (_ & B & _). destruct (B Ex) as (text & l & ds & B1 & B2 & B3 & B4 & B5 & B6 & _). exists text, l, ds. auto 8. }
  assert (Ex' : exists n, uses_global fuel' e' (wo_listing wo') c' s (rc_root_dir rc') (wo_fs wo') n) by (destruct Ex as (n & X); exists n; apply U; exact X).
  assert (G' : exists text l ds, g' (env_locate e' (globals_path c' (rc_root_dir rc'))) = Ok text /\ NoDup (List.map fst l) /\ sorted_by fst l /\
         (forall n t, In (n, t) l <-> (exists r, uses_global fuel' e' (wo_listing wo') c' s (rc_root_dir rc') (wo_fs wo') r /\ SpecGlobal.leads s r n) /\ get_type s n = Some t) /\
         Forall2 (fun x d => def_text c' (fst x) (snd x) d) l ds /\ text = header +++ join (nl +++ nl) ds).
  { destruct Th' as [One|[Pos Fl]].
    - destruct (C49_end_to_end fuel' wo' a' sched' cf' s out' g' Lc' Ls' N' S' Gd' Ho' C' One H') as (_ & B & _). destruct (B Ex') as (text & l & ds & B1 & B2 & B3 & B4 & B5 & B6 & _). exists text, l, ds. auto 8.
    - destruct (C49_flat fuel' wo' a' sched' cf' s out' g' Lc' Ls' N' S' Gd' Ho' C' Pos Fl H') as (_ & B & _). destruct (B Ex') as (text & l & ds & B1 & B2 & B3 & B4 & B5 & B6 & _). exists text, l, ds. auto 8. }
  destruct G as (text & l & ds & G1 & G2 & G3 & G4 & G5 & G6). destruct G' as (text' & l' & ds' & G1' & G2' & G3' & G4' & G5' & G6').
  assert (l = l') as <-.
  { apply (sorted_perm_eq fst); auto. apply NoDup_Permutation.
    - eapply NoDup_map_inv; eauto.
    - eapply NoDup_map_inv; eauto.
    - intros [n t]. rewrite G4, G4'. split; intros [(r & X & Y) Z]; (split; [exists r; split; [apply U; exact X|exact Y]|exact Z]). }
  assert (ds = ds') as <-.
  { assert (Gt : forall n t, In (n, t) l -> get_type s n = Some t) by (intros n t I; apply G4; exact I).
    clear - C Ec Gt G5 G5'. revert ds' G5'. induction G5 as [|[n t] d l ds X _ IH]; intros ds' G5'; inversion G5' as [|? d' ? ds2 X' F2]; subst; auto. f_equal.
    - apply (placed_text c c' Ec) in X'. eapply def_text_unique; eauto. intros fields E. apply (C n t n fields); auto. apply Gt. left; reflexivity.
    - apply IH; auto. intros; apply Gt; right; auto. }
  exists text. split; [exact G1|]. rewrite G1'. congruence.
Qed.
Print Assumptions C87_run_partial.
Theorem C87_text_partial : forall ck complaint complaint' jerr jerr' help help' version version' fuel fuel' wo wo' its its' argv argv' a a' nc nc'
    sched sched' cf cf' stext stext' j j' js s out out' f' g',
  let rc := merge_config (wo_ncpus wo) a cf in
  let rc' := merge_config (wo_ncpus wo') a' cf' in
  let c := cconfig_of rc in
  let c' := cconfig_of rc' in
  let e := wo_env wo in
  let e' := wo_env wo' in
  on_disk ck complaint jerr wo -> on_disk ck complaint' jerr' wo' ->
  SpecArgs.spelled its argv -> SpecArgs.consistent its -> SpecArgs.complete its -> SpecArgs.says its a nc ->
  SpecArgs.spelled its' argv' -> SpecArgs.consistent its' -> SpecArgs.complete its' -> SpecArgs.says its' a' nc' ->
  LinkFacts.settled wo a cf js s -> LinkFacts.settled wo' a' cf' js s -> same_output_options c c' ->
  wo_fs wo (env_locate e (rc_schema_path rc)) = Ok stext -> text_holds stext j -> says_schema j js ->
  wo_fs wo' (env_locate e' (rc_schema_path rc')) = Ok stext' -> text_holds stext' j' -> says_schema j' js -> fits js ->
  qlc_command help version fuel wo argv sched = Exited 0 out f' -> qlc_command help' version' fuel' wo' argv' sched' = Exited 0 out' g' ->
  forall path contents d frags P l n' path' contents' d' frags' l',
    is_source (wo_listing wo) (rc_root_dir rc) path -> is_source (wo_listing wo') (rc_root_dir rc') path' ->
    wo_fs wo (env_locate e path) = Ok contents -> text_says ck contents [d] -> PropC07.imported_fragments e (wo_fs wo) c path contents frags ->
    wo_fs wo' (env_locate e' path') = Ok contents' -> text_says ck contents' [d'] -> PropC07.imported_fragments e' (wo_fs wo') c' path' contents' frags' ->
    doc_root d = Some (P, l) -> is_subscription d = false -> Rewrite.settled s frags P (fun x => In x l) ->
    same_head (under_name n' d) d' -> doc_root d' = Some (P, l') -> collects_same s frags frags' same_data P (fun x => In x l) (fun x => In x l') ->
    exists t, f' (out_loc e path) = Ok (fill (def_name d) t) /\ g' (out_loc e' path') = Ok (fill n' t).
Proof.
  intros ck complaint complaint' jerr jerr' help help' version version' fuel fuel' wo wo' its its' argv argv' a a' nc nc'
    sched sched' cf cf' stext stext' j j' js s out out' f' g' rc rc' c c' e e' [Hd Hs] [Hd' Hs'] Sp Cn Cm Sy Sp' Cn' Cm' Sy' Se Se' Ec Es Th Sj Es' Th' Sj' Fi H H'
    path contents d frags P l n' path' contents' d' frags' l' Src Src' Er Td If Er' Td' If' Dr Su St Sh Dr' Cs.
  assert (Pa : parse_args argv = URun a nc) by (apply PropC65.C65_exact; eauto).
  assert (Pa' : parse_args argv' = URun a' nc') by (apply PropC65.C65_exact; eauto).
  assert (Hq : qlc fuel wo a sched = Exited 0 out f') by (unfold qlc_command in H; rewrite Pa in H; exact H).
  assert (Hq' : qlc fuel' wo' a' sched' = Exited 0 out' g') by (unfold qlc_command in H'; rewrite Pa' in H'; exact H').
  assert (Sc : wo_schema wo (rc_schema_path rc) = SRDecoded js) by (rewrite (Hs _ _ Es); apply PropC67.C67_schema; eauto).
  assert (Sc' : wo_schema wo' (rc_schema_path rc') = SRDecoded js) by (rewrite (Hs' _ _ Es'); apply PropC67.C67_schema; eauto).
  assert (Pn : forall text ds d, env_parse e text = Ok ds -> In d ds -> parsed_named d).
  { intros text ds d0 E I. rewrite Hd in E. destruct (parse_query ck text) as [ds'|] eqn:Ep; [|discriminate]. injection E as ->. eapply C69_named; eauto. }
  assert (Pn' : forall text ds d, env_parse e' text = Ok ds -> In d ds -> parsed_named d).
  { intros text ds d0 E I. rewrite Hd' in E. destruct (parse_query ck text) as [ds'|] eqn:Ep; [|discriminate]. injection E as ->. eapply C69_named; eauto. }
  assert (Epd : env_parse e contents = Ok [d]) by (rewrite Hd; apply C69_text in Td; rewrite Td; reflexivity).
  assert (Epd' : env_parse e' contents' = Ok [d']) by (rewrite Hd'; apply C69_text in Td'; rewrite Td'; reflexivity).
  apply (proj1 (C87_run_partial fuel fuel' wo wo' a a' sched sched' cf cf' js s out out' f' g' Se Se' Ec Sc Sc' Pn Pn' Hq Hq') path path' (def_name d) n' Src Src').
  exists contents, d, frags, P, l, contents', d', frags', l'. auto 16.
Qed.
Print Assumptions C87_text_partial.

(** ** Non-vacuity: the files of C72, with the query and the fragment renamed *)
Definition called_query : string :=
  ImportWorlds.import_line "n.graphql" +++
  "query Barn { pet { ...Facts ... on Dog { owner { name pet { __typename name } } } ... on Cat { extent: size } } all: pets { name __typename } }".
Definition called_fragment_text : string := "fragment Facts on Pet { name ... on Dog { owner { mood } } }".
Definition called_files : fs := ImportWorlds.files [("./g.graphql", called_query); ("./n.graphql", called_fragment_text); ("./schema.json", farm_text)].
Definition called_world : world :=
  {| wo_env := text_env; wo_listing := PropC35.pair_listing; wo_ncpus := 4; wo_config := fun _ => CRNotFound "not found";
     wo_schema := fun p => match called_files p with Ok t => schema_of_text "" t | Err m => SRIoError m end; wo_fs := called_files |}.
Lemma called_step file contents n l t : imports_at plain_config file contents n l t ->
  (file = "./g.graphql" /\ contents = called_query) \/ (file = "./n.graphql" /\ contents = called_fragment_text) -> t = "./n.graphql".
Proof.
  intros H K. pose proof (PropC35.imports_target _ _ _ _ _ _ H) as (L & E). destruct H as (q & _ & (rest & Eq & _) & _).
  destruct K as [[-> ->]|[-> ->]].
  - destruct n as [|[|[|n]]]; vm_compute in L; try discriminate; injection L as <-; [vm_compute in E; congruence|discriminate].
  - destruct n as [|[|n]]; vm_compute in L; try discriminate; injection L as <-. discriminate.
Qed.
Lemma called_reach file contents t o : (file = "./g.graphql" /\ contents = called_query) \/ (file = "./n.graphql" /\ contents = called_fragment_text) ->
  reach text_env called_files plain_config file contents t o -> t = "./n.graphql" /\ o = called_fragment_text.
Proof.
  intros K R. induction R as [n l t o A Eo|mid mc n l t o R [-> ->] A Eo].
  - apply called_step in A; auto. subst. split; auto. unfold called_files, ImportWorlds.files in Eo. cbn in Eo. congruence.
  - apply called_step in A; auto. subst. split; auto. unfold called_files, ImportWorlds.files in Eo. cbn in Eo. congruence.
Qed.
Lemma called_read path contents : is_source PropC35.pair_listing "." path -> called_files (env_locate text_env path) = Ok contents ->
  (path = "./g.graphql" /\ contents = called_query) \/ (path = "./n.graphql" /\ contents = called_fragment_text).
Proof. intros [-> | ->]%PropC35.pair_source E; [left|right]; (split; [reflexivity|]); vm_compute in E |- *; congruence. Qed.
Lemma called_separate : separate text_env PropC35.pair_listing plain_config "." called_files.
Proof.
  split.
  - intros x y l Hx Hy R. assert (Ey : out_loc text_env y = "./g.graphql.d.ts" \/ out_loc text_env y = "./n.graphql.d.ts").
    { apply PropC35.pair_source in Hy. destruct Hy as [-> | ->]; [left|right]; reflexivity. }
    assert (El : l = "./g.graphql" \/ l = "./n.graphql").
    { destruct R as [|contents file' contents' n l t E I A]; [apply PropC35.pair_source; auto|]. right.
      pose proof (called_read _ _ Hx E) as K. destruct I as [[-> ->]|R].
      - eapply (called_step x contents); eauto.
      - destruct (called_reach _ _ _ _ K R) as [-> ->]. eapply (called_step _ _ _ _ _ A). auto. }
    destruct El as [-> | ->], Ey as [-> | ->]; discriminate.
  - intros x y Hx Hy. apply PropC35.pair_source in Hx. apply PropC35.pair_source in Hy. destruct Hx as [-> | ->], Hy as [-> | ->]; auto; discriminate.
Qed.
Lemma called_settled : LinkFacts.settled called_world (args_threads 1) config_default farm_json farm.
Proof.
  destruct PropC35.C35_nonvacuous as (_ & _ & _ & N & _ & _ & _ & C & _).
  constructor; auto.
  - exact farm_intro.
  - apply json_nameableb_ok. vm_compute. reflexivity.
  - exact called_separate.
  - intros p Sp. apply PropC35.pair_source in Sp. destruct Sp as [-> | ->]; discriminate.
  - intros p. exact plain_ok.
  - intros a b x y Pe Ea Eb. apply path_eqb_same in Pe. change (called_files a = Ok x) in Ea. change (called_files b = Ok y) in Eb. unfold called_files, ImportWorlds.files in Ea, Eb. cbn [aget] in Ea, Eb.
    unfold eqb, EqB_string in Ea, Eb.
    destruct (String.eqb_spec a "./g.graphql") as [->|]; [|destruct (String.eqb_spec a "./n.graphql") as [->|]; [|destruct (String.eqb_spec a "./schema.json") as [->|]; [|discriminate]]];
    (destruct (String.eqb_spec b "./g.graphql") as [->|]; [|destruct (String.eqb_spec b "./n.graphql") as [->|]; [|destruct (String.eqb_spec b "./schema.json") as [->|]; [|discriminate]]]); congruence || discriminate.
  - intros path contents t o Sp E R. pose proof (called_read _ _ Sp E) as K. destruct (called_reach _ _ _ _ K R) as [-> _].
    apply PropC35.pair_is_source. auto.
Qed.
Definition called_doc : definition := Eval vm_compute in match parse_query lenient called_query with Some [d] => d | _ => DFrag pet_name end.
Definition called_fragment : fragdef := Eval vm_compute in match parse_query lenient called_fragment_text with Some [DFrag d] => d | _ => pet_name end.
Definition called_sels : list selection := Eval vm_compute in match doc_root called_doc with Some (_, l) => l | None => [] end.
Lemma called_fragments : PropC07.imported_fragments text_env called_files plain_config "./g.graphql" called_query [("Facts", called_fragment)].
Proof.
  intros n fd. split.
  - intros E. cbn [aget] in E. destruct (eqb n "Facts") eqn:En; [|discriminate]. injection E as <-. apply String.eqb_eq in En. subst n.
    exists "./n.graphql", called_fragment_text. split; [|split; [vm_compute; reflexivity|reflexivity]].
    eapply (reach_one _ _ _ _ _ 0 (import_mark +++ "n.graphql" +++ String quote "")); [|vm_compute; reflexivity].
    exists "n.graphql". split; [split; [vm_compute; reflexivity|intros k l' Lt; lia]|]. split.
    + exists "". split; [reflexivity|]. intros X. inversion X.
    + apply (resolves_root plain_config _ "n.graphql").
      * intros r (p & X & _). discriminate.
      * intros r. discriminate.
  - intros (t & o & R & Hf & <-). destruct (called_reach _ _ _ _ (or_introl (conj eq_refl eq_refl)) R) as [-> ->].
    vm_compute in Hf. injection Hf as <-. reflexivity.
Qed.
Lemma called_recasts : recasts [("PetName", disk_fragment)] [("Facts", called_fragment)] disk_sels called_sels.
Proof.
  unfold disk_sels, called_sels. apply rc_cons; [apply rc_field; [reflexivity|]|recasting].
  apply rc_cons; [|recasting]. eapply (rc_narrow _ _ _ _ "Pet" (fr_sels disk_fragment) (fr_sels called_fragment));
    [apply (nw_spread _ _ _ _ disk_fragment); reflexivity|apply (nw_spread _ _ _ _ called_fragment); reflexivity|].
  cbn [fr_sels disk_fragment called_fragment]. recasting.
Qed.
Example C87_nonvacuous  : exists out f' out' g' t,
  qlc_command "" "" 30 disk_world ["--num-threads"; "1"] (repeat 0 90) = Exited 0 out f' /\
  qlc_command "" "" 30 called_world ["--num-threads"; "1"] (repeat 0 90) = Exited 0 out' g' /\
  f' "./g.graphql.d.ts" = Ok (fill "Q" t) /\ g' "./g.graphql.d.ts" = Ok (fill "Barn" t) /\
  f' "./g.graphql.d.ts" <> g' "./g.graphql.d.ts".
Proof.
  assert (Pa : parse_args ["--num-threads"; "1"] = URun (args_threads 1) false) by reflexivity.
  apply PropC65.C65_exact in Pa. destruct Pa as (its & Sp & Cn & Cm & Sy).
  assert (X : exists j, text_holds farm_text j /\ says_schema j farm_json /\ fits farm_json) by (apply (PropC67.C67_schema ""); exact farm_text_read).
  destruct X as (j & Th & Sj & Fi).
  assert (H : exists out f' out' g', qlc_command "" "" 30 disk_world ["--num-threads"; "1"] (repeat 0 90) = Exited 0 out f' /\
    qlc_command "" "" 30 called_world ["--num-threads"; "1"] (repeat 0 90) = Exited 0 out' g' /\ f' "./g.graphql.d.ts" <> g' "./g.graphql.d.ts").
  { do 4 eexists. split; [vm_compute; reflexivity|]. split; [vm_compute; reflexivity|]. vm_compute. discriminate. }
  destruct H as (out & f' & out' & g' & H & H' & Ne).
  assert (Dk : on_disk lenient (fun _ => "syntax error") "" disk_world).
  { split; [reflexivity|]. intros p t E. cbn [disk_world wo_schema]. cbn [disk_world wo_fs wo_env] in E. change (disk_files p = Ok t) in E. rewrite E. reflexivity. }
  assert (Dk' : on_disk lenient (fun _ => "syntax error") "" called_world).
  { split; [reflexivity|]. intros p t E. cbn [called_world wo_schema]. cbn [called_world wo_fs wo_env] in E. change (called_files p = Ok t) in E. rewrite E. reflexivity. }
  pose proof (C87_text_partial lenient (fun _ => "syntax error") (fun _ => "syntax error") "" "" "" "" "" "" 30 30 disk_world called_world its its ["--num-threads"; "1"] ["--num-threads"; "1"]
    (args_threads 1) (args_threads 1) false false (repeat 0 90) (repeat 0 90) config_default config_default farm_text farm_text j j farm_json farm out out' f' g'
    Dk Dk' Sp Cn Cm Sy Sp Cn Cm Sy disk_settled called_settled (conj eq_refl (conj eq_refl (conj eq_refl (conj eq_refl eq_refl)))) eq_refl Th Sj eq_refl Th Sj Fi H H') as K.
  destruct (K "./g.graphql" barn_query disk_doc [("PetName", disk_fragment)] "Query" disk_sels "Barn" "./g.graphql" called_query called_doc [("Facts", called_fragment)] called_sels) as (t & A & B).
  - apply PropC35.pair_is_source. auto.
  - apply PropC35.pair_is_source. auto.
  - reflexivity.
  - apply C69_text. vm_compute. reflexivity.
  - exact disk_fragments.
  - reflexivity.
  - apply C69_text. vm_compute. reflexivity.
  - exact called_fragments.
  - reflexivity.
  - reflexivity.
  - exact disk_said_once.
  - cbn. repeat split; auto. constructor.
  - reflexivity.
  - exact (proj2 (C84_recast _ _ _ _ _ _ called_recasts disk_valid disk_said_once)).
  - exists out, f', out', g', t. auto.
Qed.
