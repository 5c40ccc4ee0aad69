(** C93: operations and fragments can be renamed throughout a project. *)
From Verif Require Import SpecRename RefactorFacts RecastFacts LinkFacts GlobalRead EndFacts.
From Verif Require LoadName PropC07 PropC35 PropC49 PropC56 PropC72 PropC78 PropC79 PropC81 PropC87 RenameFacts.

(** Under new names, no two of which are the same, valid projects stay valid and others do not become valid *)
Theorem C93_valid : forall e ls f f' c s root G, one_to_one G -> retitled_files e ls c root G f f' ->
  unique_fragments e ls f c root -> unique_fragments e ls f' c root ->
  (valid_project e ls f c s root <-> valid_project e ls f' c s root).
Proof.
  intros e ls f f' c s root G Oto M U U'. split; intros V.
  - exact (valid_project_matched e ls c root G f f' s Oto M U' V).
  - exact (valid_project_matched e ls c root (flip G) f' f s (one_flip G Oto) (files_flip e ls c root G f f' M) U V).
Qed.
Print Assumptions C93_valid.

(** With one worker: some run on the one exits with 0 exactly if some run on the other does *)
Theorem C93_exits_partial : forall wo wo' a cf s G,
  let rc := merge_config (wo_ncpus wo) a cf in
  let c := cconfig_of rc in
  let e := wo_env wo in
  let ls := wo_listing wo in
  let root := rc_root_dir rc in
  let f := wo_fs wo in
  let f' := wo_fs wo' in
  load_config (ca_config_file a) (wo_config wo) = Ok cf ->
  parse_schema (rc_schema_path rc) (wo_schema wo (rc_schema_path rc)) = Ok s ->
  wo_env wo' = e -> wo_ncpus wo' = wo_ncpus wo -> wo_config wo' = wo_config wo -> wo_listing wo' = ls ->
  wo_schema wo' (rc_schema_path rc) = wo_schema wo (rc_schema_path rc) ->
  names_ok ls -> separate e ls c root f -> (forall p, order_ok (env_order e p)) -> paths_agree e f -> paths_agree e f' ->
  consistent s -> inputs_consistent s -> inhabited_types s -> proper_types s -> types_parse e -> finite (dir_kids ls) (WDir root) ->
  rc_number_threads rc = 1 -> env_write e (globals_path c root) = WOk ->
  imports_inside e ls f c root -> relative_paths e ->
  (forall path contents d, is_source ls root path -> f (env_locate e path) = Ok contents -> env_parse e contents = Ok [d] -> is_subscription d = false) ->
  (forall path, is_source ls root path -> out_loc e path <> env_locate e (globals_path c root)) ->
  one_to_one G -> retitled_files e ls c root G f f' -> unique_fragments e ls f c root -> unique_fragments e ls f' c root ->
  ((exists fuel sched out g, qlc fuel wo a sched = Exited 0 out g) <-> (exists fuel sched out g, qlc fuel wo' a sched = Exited 0 out g)).
Proof.
  intros wo wo' a cf s G rc c e ls root f f' Lc Ls Ee En Ec El Es N S Ho Ag Ag' Co Ci Inh Pr Ty Fin One W Ins Rel Qu Sg Oto M U U'.
  pose proof (PropC79.C79_exact_partial wo a cf s Lc Ls N S Ho Ag Co Ci Inh Pr Ty Fin One W U Ins Rel Qu Sg) as A.
  assert (B : (exists fuel sched out g, qlc fuel wo' a sched = Exited 0 out g) <-> valid_project e ls f' c s root).
  { pose proof (PropC79.C79_exact_partial wo' a cf s) as K. cbn zeta in K. rewrite Ee, En, Ec, El in K. fold rc in K. fold c e ls root f' in K. rewrite Es in K.
    apply K; auto.
    - eapply separate_matched; eauto.
    - eapply inside_matched; eauto.
    - eapply queries_matched; eauto. }
  rewrite A, B. exact (C93_valid e ls f f' c s root G Oto M U U').
Qed.
Print Assumptions C93_exits_partial.

(** ** What is generated *)
Definition titled (d : definition) : Prop := match d with DOp (OpNamed _ _ None _ _ _) => False | _ => True end.
Lemma renamed_from e ls c root G f f' s path : one_to_one G -> retitled_files e ls c root G f f' -> unique_fragments e ls f' c root ->
  is_source ls root path -> PropC81.settled_source e f c s path ->
  (forall y d, f' (env_locate e path) = Ok y -> env_parse e y = Ok [d] -> titled d) ->
  exists x d y d', f (env_locate e path) = Ok x /\ env_parse e x = Ok [d] /\ f' (env_locate e path) = Ok y /\ env_parse e y = Ok [d'] /\ retitled G d d' /\
    PropC87.renamed_source s c c e e f f' path path (def_name d) (def_name d').
Proof.
  intros Oto M U Sp (x & d & P & l & fr & V & St) Ti. destruct (valid_at_matched e ls c root G f f' s Oto M U path x d P l fr Sp V) as (y & d' & l' & fr' & V' & Rt & Rs & Rn).
  exists x, d, y, d'. pose proof V as [Ex Ep _ _ _ _ Br Ro Su _ _ Vs _ _]. pose proof V' as [Ex' Ep' _ _ _ _ Br' Ro' _ _ _ _ _ _].
  do 5 (split; [assumption|]). exists x, d, fr, P, l, y, d', fr', l'. specialize (Ti y d' Ex' Ep').
  assert (Sh : same_head (under_name (def_name d') d) d').
  { inversion Rt as [|k p n vs ds m p' n' vs' ds' m' Nn Sv Rs0|a b Gn Ec Rs0]; subst; cbn [under_name].
    - cbn in Ro. discriminate Ro.
    - destruct n' as [n'|]; [|contradiction Ti]. cbn. auto.
    - cbn. auto. }
  do 10 (split; [auto|]). split; [exact Sh|]. split; [exact Ro'|]. apply recast_collects; [exact St|]. apply recasts_told.
  exact (proj2 (respread_recasts s fr fr' G Rn) P l Vs l' Rs).
Qed.

(** The same project under new names: if it compiled it still does, each output differs in the name of its own document only (no
    name of another fragment shows), and the module of globals is the same *)
Theorem C93_outputs_partial : forall fuel fuel' wo wo' a sched sched' cf js s G out g code' out' g',
  let rc := merge_config (wo_ncpus wo) a cf in
  let c := cconfig_of rc in
  let e := wo_env wo in
  let ls := wo_listing wo in
  let root := rc_root_dir rc in
  let f := wo_fs wo in
  let f' := wo_fs wo' in
  let gl := env_locate e (globals_path c root) in
  LinkFacts.settled wo a cf js s -> inhabited_types s -> types_parse e -> finite (dir_kids ls) (WDir root) -> env_write e (globals_path c root) = WOk ->
  wo_env wo' = e -> wo_ncpus wo' = wo_ncpus wo -> wo_config wo' = wo_config wo -> wo_listing wo' = ls ->
  wo_schema wo (rc_schema_path rc) = SRDecoded js -> wo_schema wo' (rc_schema_path rc) = SRDecoded js -> paths_agree e f' ->
  (forall text ds d, env_parse e text = Ok ds -> In d ds -> PropC56.parsed_named d) ->
  one_to_one G -> retitled_files e ls c root G f f' -> unique_fragments e ls f' c root ->
  (forall path y d, is_source ls root path -> f' (env_locate e path) = Ok y -> env_parse e y = Ok [d] -> titled d) ->
  valid_project e ls f c s root -> (forall path, is_source ls root path -> PropC81.settled_source e f c s path) ->
  qlc fuel wo a sched = Exited 0 out g -> qlc fuel' wo' a sched' = Exited code' out' g' ->
  code' = 0 /\
  (forall path, is_source ls root path -> exists x d y d' t,
     f (env_locate e path) = Ok x /\ env_parse e x = Ok [d] /\ f' (env_locate e path) = Ok y /\ env_parse e y = Ok [d'] /\
     g (out_loc e path) = Ok (fill (def_name d) t) /\ g' (out_loc e path) = Ok (fill (def_name d') t)) /\
  ((exists n, PropC49.uses_global fuel e ls c s root f n) -> exists text, g gl = Ok text /\ g' gl = Ok text).
Proof.
  intros fuel fuel' wo wo' a sched sched' cf js s G out g code' out' g' rc c e ls root f f' gl Se Inh Ty Fin W Ee En Ec El Es Es' Ag' Pn Oto M U Ti V Ss H H'.
  pose proof Se as [Lc In0 Jn N S Gd Ho C Ag Sc Th]. pose proof (in_loaded _ _ In0) as L. pose proof (intro_consistent _ _ In0) as Co.
  pose proof (PropC72.nameable_proper _ _ (LoadName.loaded_nameable _ _ _ L Jn)) as Pr.
  assert (Se' : LinkFacts.settled wo' a cf js s).
  { constructor; rewrite ?Ee, ?En, ?Ec, ?El; auto.
    - exact (separate_matched e ls c root G f f' M S).
    - exact (contained_matched e ls c root G f f' M Sc). }
  assert (Ls' : parse_schema (rc_schema_path rc) (wo_schema wo' (rc_schema_path rc)) = Ok s) by (rewrite Es'; cbn [parse_schema]; rewrite L; reflexivity).
  pose proof (valid_project_matched e ls c root G f f' s Oto M U V) as V'.
  assert (Z : code' = 0).
  { pose proof (PropC79.C79_accepts wo' a cf s) as K. cbn zeta in K. rewrite Ee, En, Ec, El in K. fold rc in K. fold c e ls root f' in K.
    destruct K as (k0 & K); auto.
    - exact (separate_matched e ls c root G f f' M S).
    - destruct (K (Nat.max k0 fuel') (Nat.le_max_l _ _) sched') as (K1 & _).
      rewrite <- (qlc_mono _ _ wo' a sched' (Nat.le_max_r k0 fuel')) in H' by (rewrite H'; discriminate).
      destruct K1 as [K1|(o & h & K1)]; rewrite H' in K1; [discriminate K1|]. injection K1 as -> _ _. reflexivity. }
  subst code'. split; [reflexivity|].
  assert (Rf : forall path, is_source ls root path -> exists x d y d', f (env_locate e path) = Ok x /\ env_parse e x = Ok [d] /\ f' (env_locate e path) = Ok y /\ env_parse e y = Ok [d'] /\ retitled G d d' /\
    PropC87.renamed_source s c c e e f f' path path (def_name d) (def_name d')).
  { intros path Sp. apply (renamed_from e ls c root G f f' s path Oto M U Sp (Ss path Sp)). intros y d. exact (Ti path y d Sp). }
  pose proof (PropC87.C87_run_partial fuel fuel' wo wo' a a sched sched' cf cf js s out out' g g' Se Se') as K. cbn zeta in K.
  rewrite Ee, En, El in K. fold rc in K. fold c e ls root f f' in K. specialize (K (conj eq_refl (conj eq_refl (conj eq_refl (conj eq_refl eq_refl)))) Es Es' Pn Pn H H'). destruct K as [K1 K2]. split.
  - intros path Sp. destruct (Rf path Sp) as (x & d & y & d' & A1 & A2 & A3 & A4 & _ & R). destruct (K1 path path _ _ Sp Sp R) as (t & B1 & B2).
    exists x, d, y, d', t. auto 8.
  - apply K2; intros path Sp; destruct (Rf path Sp) as (x & d & y & d' & _ & _ & _ & _ & _ & R); eauto 6.
Qed.
Print Assumptions C93_outputs_partial.

(** ** The files of C72, with the query and the fragment renamed *)
From Verif Require PropC79.
From Verif Require Import Gql PropC69 PropC72 PropC87.
Lemma import_lines_ahead ahead x y u v : lines x = ahead ++ u -> lines y = ahead ++ v ->
  Forall (fun l => String.prefix import_mark l = false) u -> Forall (fun l => String.prefix import_mark l = false) v -> same_import_lines x y.
Proof.
  assert (K : forall x y u v, lines x = ahead ++ u -> lines y = ahead ++ v -> Forall (fun l => String.prefix import_mark l = false) u ->
    forall n r, leading_line x n (import_mark +++ r) -> leading_line y n (import_mark +++ r)).
  { clear. intros x y u v Ex Ey F n r [Hn Hl]. unfold leading_line. rewrite Ex in *. rewrite Ey.
    destruct (Nat.lt_ge_cases n (List.length ahead)) as [L|L].
    - rewrite nth_error_app1 in * by exact L. split; [exact Hn|]. intros k l' Lk Hk. apply (Hl k l' Lk).
      assert (Lk' : k < List.length ahead) by (eapply Nat.lt_trans; eauto). rewrite nth_error_app1 in * by exact Lk'. exact Hk.
    - exfalso. rewrite nth_error_app2 in Hn by exact L. apply nth_error_In in Hn. rewrite Forall_forall in F. specialize (F _ Hn).
      cbn [import_mark] in F. clear - F. vm_compute in F. destruct r; discriminate F. }
  intros Ex Ey Fu Fv n r. split; eapply K; eauto.
Qed.
Ltac respreading := repeat first [apply rs_nil|apply rs_cons|apply rs_field|apply rs_spread; cbn; auto|apply rs_inline].
Definition called (n n' : string) : Prop := n = "PetName" /\ n' = "Facts".
Lemma called_one : one_to_one called.
Proof. split; unfold called; intros; intuition congruence. Qed.
Lemma called_texts : retitled_text text_env called barn_query called_query /\ retitled_text text_env called barn_fragment called_fragment_text /\
  retitled_text text_env called farm_text farm_text.
Proof.
  split; [|split]; (split; [|]).
  - apply (import_lines_ahead [import_mark +++ "n.graphql" +++ String quote ""] _ _ (tl (lines barn_query)) (tl (lines called_query)));
      [vm_compute; reflexivity|vm_compute; reflexivity| |]; vm_compute; repeat constructor.
  - change (env_parse text_env barn_query) with (@Ok string (list definition) [disk_doc]). change (env_parse text_env called_query) with (@Ok string (list definition) [called_doc]).
    constructor; [|constructor]. unfold disk_doc, called_doc. constructor; [split; discriminate|constructor|respreading; split; reflexivity].
  - apply (import_lines_ahead [] _ _ (lines barn_fragment) (lines called_fragment_text)); [reflexivity|reflexivity| |]; vm_compute; repeat constructor.
  - change (env_parse text_env barn_fragment) with (@Ok string (list definition) [DFrag disk_fragment]).
    change (env_parse text_env called_fragment_text) with (@Ok string (list definition) [DFrag called_fragment]).
    constructor; [|constructor]. unfold disk_fragment, called_fragment. constructor; [split; reflexivity|reflexivity|cbn [fr_sels]; respreading].
  - intros n r. tauto.
  - assert (E : env_parse text_env farm_text = Err "syntax error") by (vm_compute; reflexivity). rewrite E. exact I.
Qed.
Lemma called_retitled : retitled_files text_env PropC35.pair_listing plain_config "." called disk_files called_files.
Proof.
  intros path l _ _. destruct called_texts as (A & B & C). unfold disk_files, called_files, ImportWorlds.files. cbn [aget]. unfold eqb, EqB_string.
  destruct (String.eqb l "./g.graphql"); [exact A|]. destruct (String.eqb l "./n.graphql"); [exact B|]. destruct (String.eqb l "./schema.json"); [exact C|exact I].
Qed.
Lemma called_unique : unique_fragments text_env PropC35.pair_listing called_files plain_config ".".
Proof.
  intros path contents n fd fd' Sp E (t & o & R & Hf & _) (t' & o' & R' & Hf' & _). pose proof (called_read path contents Sp E) as K.
  destruct (called_reach _ _ _ _ K R) as [_ ->]. destruct (called_reach _ _ _ _ K R') as [_ ->]. unfold holds_fragment in Hf, Hf'. congruence.
Qed.
Example C93_nonvacuous : exists out g out' g' t,
  qlc 30 disk_world (args_threads 1) (repeat 0 90) = Exited 0 out g /\ qlc 30 called_world (args_threads 1) (repeat 0 90) = Exited 0 out' g' /\
  g "./g.graphql.d.ts" = Ok (fill "Q" t) /\ g' "./g.graphql.d.ts" = Ok (fill "Barn" t) /\ g "./g.graphql.d.ts" <> g' "./g.graphql.d.ts" /\
  valid_project text_env PropC35.pair_listing called_files plain_config farm ".".
Proof.
  assert (H : exists out g out' g', qlc 30 disk_world (args_threads 1) (repeat 0 90) = Exited 0 out g /\
    qlc 30 called_world (args_threads 1) (repeat 0 90) = Exited 0 out' g' /\ g "./g.graphql.d.ts" <> g' "./g.graphql.d.ts").
  { do 4 eexists. split; [vm_compute; reflexivity|]. split; [vm_compute; reflexivity|]. vm_compute. discriminate. }
  destruct H as (out & g & out' & g' & H & H' & Ne). exists out, g, out', g'.
  assert (Pn : forall text ds d, env_parse text_env text = Ok ds -> In d ds -> PropC56.parsed_named d).
  { intros text ds d E I. cbn [env_parse text_env] in E. destruct (parse_query lenient text) as [ds'|] eqn:Ep; [|discriminate]. injection E as ->. eapply C69_named; eauto. }
  destruct (C93_outputs_partial 30 30 disk_world called_world (args_threads 1) (repeat 0 90) (repeat 0 90) config_default farm_json farm called out g 0 out' g'
    PropC72.disk_settled PropC79.farm_inhabited (PropC79.disk_types lenient (fun _ => "syntax error") "" disk_world (PropC77.world_disk PropC35.pair_listing disk_files)) PropC78.disk_finite eq_refl eq_refl eq_refl eq_refl eq_refl
    farm_text_read farm_text_read (se_paths _ _ _ _ _ called_settled) Pn called_one called_retitled called_unique) as (_ & K & _).
  - intros path y d Sp Ey Ed. destruct (called_read path y Sp Ey) as [[-> ->]|[-> ->]]; vm_compute in Ed; injection Ed as <-; exact I.
  - exact PropC79.disk_project.
  - exact PropC81.disk_settled_source.
  - exact H.
  - exact H'.
  - destruct (K "./g.graphql") as (x & d & y & d' & t & A1 & A2 & A3 & A4 & A5 & A6); [apply PropC35.pair_is_source; auto|].
    vm_compute in A1, A3. injection A1 as <-. injection A3 as <-. vm_compute in A2, A4. injection A2 as <-. injection A4 as <-.
    exists t. split; [exact H|]. split; [exact H'|]. split; [exact A5|]. split; [exact A6|]. split; [exact Ne|].
    apply (proj1 (C93_valid text_env PropC35.pair_listing disk_files called_files plain_config farm "." called called_one called_retitled PropC79.disk_unique called_unique)).
    exact PropC79.disk_project.
Qed.

(** ** Two fragments that get one name: nothing is reported, but another fragment is meant *)
Definition apart_query : string := ImportWorlds.import_line "a.graphql" +++ ImportWorlds.import_line "b.graphql" +++ "query Q { pet { ...A } }".
Definition apart_files : fs := ImportWorlds.files [("./x.graphql", apart_query); ("./a.graphql", "fragment A on Pet { name }"); ("./b.graphql", "fragment B on Pet { __typename }")].
Definition apart_world : world :=
  {| wo_env := text_env; wo_listing := PropC79.twice_listing; wo_ncpus := 4; wo_config := fun _ => CRNotFound "not found";
     wo_schema := fun _ => SRDecoded farm_json; wo_fs := apart_files |}.
Definition joined (n n' : string) : Prop := (n = "A" \/ n = "B") /\ n' = "F".
Lemma joined_retitled : retitled_files text_env PropC79.twice_listing plain_config "." joined apart_files PropC79.twice_files.
Proof.
  intros path l _ _. unfold apart_files, PropC79.twice_files, ImportWorlds.files. cbn [aget]. unfold eqb, EqB_string.
  destruct (String.eqb l "./x.graphql"); [|destruct (String.eqb l "./a.graphql"); [|destruct (String.eqb l "./b.graphql"); [|exact I]]]; (split; [|]).
  - apply (import_lines_ahead [import_mark +++ "a.graphql" +++ String quote ""; import_mark +++ "b.graphql" +++ String quote ""] _ _
      (tl (tl (lines apart_query))) (tl (tl (lines PropC79.twice_query)))); [vm_compute; reflexivity|vm_compute; reflexivity| |]; vm_compute; repeat constructor.
  - vm_compute. repeat first [apply Forall2_cons|apply Forall2_nil]. constructor; [split; discriminate|constructor|respreading].
  - apply (import_lines_ahead [] _ _ (lines "fragment A on Pet { name }") (lines PropC79.twice_a)); [reflexivity|reflexivity| |]; vm_compute; repeat constructor.
  - vm_compute. repeat first [apply Forall2_cons|apply Forall2_nil]. constructor; [split; auto|reflexivity|cbn [fr_sels]; respreading].
  - apply (import_lines_ahead [] _ _ (lines "fragment B on Pet { __typename }") (lines PropC79.twice_b)); [reflexivity|reflexivity| |]; vm_compute; repeat constructor.
  - vm_compute. repeat first [apply Forall2_cons|apply Forall2_nil]. constructor; [split; auto|reflexivity|cbn [fr_sels]; respreading].
Qed.
Theorem C93_refuted : exists out g out' g',
  retitled_files text_env PropC79.twice_listing plain_config "." joined apart_files PropC79.twice_files /\
  qlc 30 apart_world (args_threads 1) (repeat 0 90) = Exited 0 out g /\ qlc 30 PropC79.twice_world (args_threads 1) (repeat 0 90) = Exited 0 out' g' /\
  ~ exists t, g "./x.graphql.d.ts" = Ok (fill "Q" t) /\ g' "./x.graphql.d.ts" = Ok (fill "Q" t).
Proof.
  do 4 eexists. split; [exact joined_retitled|]. split; [vm_compute; reflexivity|]. split; [vm_compute; reflexivity|].
  intros (t & A & B). rewrite <- B in A. vm_compute in A. discriminate A.
Qed.
Print Assumptions C93_refuted.

(** ** From texts to texts *)
From Verif Require Import Json Args SpecGtext SpecJson SpecJtext.
From Verif Require SpecArgs PropC65 PropC67.
Theorem C93_text_partial : forall ck complaint jerr help version fuel fuel' wo wo' its argv a nc sched sched' cf stext j stext' j' js s G out g code' out' g',
  let rc := merge_config (wo_ncpus wo) a cf in
  let c := cconfig_of rc in
  let e := wo_env wo in
  let ls := wo_listing wo in
  let root := rc_root_dir rc in
  let f := wo_fs wo in
  let f' := wo_fs wo' in
  let gl := env_locate e (globals_path c root) in
  on_disk ck complaint jerr wo -> on_disk ck complaint jerr wo' ->
  SpecArgs.spelled its argv -> SpecArgs.consistent its -> SpecArgs.complete its -> SpecArgs.says its a nc ->
  LinkFacts.settled wo a cf js s -> inhabited_types s -> finite (dir_kids ls) (WDir root) -> env_write e (globals_path c root) = WOk ->
  wo_env wo' = e -> wo_ncpus wo' = wo_ncpus wo -> wo_config wo' = wo_config wo -> wo_listing wo' = ls -> paths_agree e f' ->
  f (env_locate e (rc_schema_path rc)) = Ok stext -> text_holds stext j -> says_schema j js ->
  f' (env_locate e (rc_schema_path rc)) = Ok stext' -> text_holds stext' j' -> says_schema j' js -> fits js ->
  one_to_one G -> retitled_files e ls c root G f f' -> unique_fragments e ls f' c root ->
  (forall path y d, is_source ls root path -> f' (env_locate e path) = Ok y -> text_says ck y [d] -> titled d) ->
  valid_project e ls f c s root -> (forall path, is_source ls root path -> PropC81.settled_source e f c s path) ->
  qlc_command help version fuel wo argv sched = Exited 0 out g -> qlc_command help version fuel' wo' argv sched' = Exited code' out' g' ->
  code' = 0 /\
  (forall path, is_source ls root path -> exists x d y d' t,
     f (env_locate e path) = Ok x /\ text_says ck x [d] /\ f' (env_locate e path) = Ok y /\ text_says ck y [d'] /\
     g (out_loc e path) = Ok (fill (def_name d) t) /\ g' (out_loc e path) = Ok (fill (def_name d') t)) /\
  ((exists n, PropC49.uses_global fuel e ls c s root f n) -> exists text, g gl = Ok text /\ g' gl = Ok text).
Proof.
  intros ck complaint jerr help version fuel fuel' wo wo' its argv a nc sched sched' cf stext j stext' j' js s G out g code' out' g' rc c e ls root f f' gl
    Hd Hd' Sp Cn Cm Sy Se Inh Fin W Ee En Ec El Ag' Es Tx Sj Es' Tx' Sj' Fi Oto M U Ti V Ss H H'.
  assert (Pa : parse_args argv = URun a nc) by (apply PropC65.C65_exact; exists its; auto).
  unfold qlc_command in H, H'. rewrite Pa in H, H'.
  assert (Sc : wo_schema wo (rc_schema_path rc) = SRDecoded js) by (rewrite (od_schema _ _ _ _ Hd _ _ Es); apply PropC67.C67_schema; eauto).
  assert (Sc' : wo_schema wo' (rc_schema_path rc) = SRDecoded js).
  { rewrite <- Ee in Es'. rewrite (od_schema _ _ _ _ Hd' _ _ Es'). apply PropC67.C67_schema. eauto. }
  assert (Pq : forall y ds, env_parse e y = Ok ds <-> text_says ck y ds).
  { intros y ds. pose proof (od_documents _ _ _ _ Hd) as X. unfold e. rewrite X. rewrite <- C69_text. destruct (parse_query ck y); split; intros E; try discriminate; congruence. }
  assert (Pn : forall text ds d, env_parse e text = Ok ds -> In d ds -> PropC56.parsed_named d).
  { intros text ds d E I. apply Pq, C69_text in E. eapply C69_named; eauto. }
  destruct (C93_outputs_partial fuel fuel' wo wo' a sched sched' cf js s G out g code' out' g' Se Inh (PropC79.disk_types _ _ _ _ Hd) Fin W Ee En Ec El Sc Sc' Ag' Pn Oto M U) as (A & B & C); auto.
  { intros path y d Src Ey Ed. apply (Ti path y d Src Ey). apply Pq. exact Ed. }
  split; [exact A|]. split; [|exact C]. intros path Src. destruct (B path Src) as (x & d & y & d' & t & B1 & B2 & B3 & B4 & B5).
  exists x, d, y, d', t. rewrite <- !Pq. auto.
Qed.
Print Assumptions C93_text_partial.
