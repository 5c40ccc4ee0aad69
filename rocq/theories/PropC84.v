(** C84: the names of fragments, and how a request is divided into fragments and files, do not show in its module. *)
From Verif Require Import PlaceFacts LinkData LinkExt IntroCheck ShareWorlds GlobalRead JsonCheck WrittenEq Package RespFacts RunFacts GlobalText PropC56 PropC04 PropC49 PropC18 PropC35 LinkFacts.
From Verif Require Import Gql Json Args SpecGtext SpecJson SpecJtext GlayoutFacts PropC69 PropC72 RecastFacts.
From Verif Require SpecArgs PropC07 PropC48 PropC65 PropC67.

(** A document that compiles, and another with the same name and variables that collects the same fields, with its own
    fragments: that compiles as well, to the same module.  (Full statement, false of the code: without [settled].) *)
Theorem C84_module_partial : forall n cx cx' c o o' d d' ws co P l l',
  consistent (cx_schema cx) -> order_ok (cx_order cx) -> order_ok o -> order_ok (cx_order cx') -> order_ok o' ->
  cx_schema cx' = cx_schema cx ->
  document_file n cx c o d ws co -> doc_root d = Some (P, l) -> is_subscription d = false ->
  frags_valid (cx_schema cx) (cx_frags cx) l -> Rewrite.settled (cx_schema cx) (cx_frags cx) P (fun x => In x l) ->
  same_head d d' -> doc_root d' = Some (P, l') -> valid_sels (cx_schema cx) (cx_frags cx') P l' ->
  collects_same (cx_schema cx) (cx_frags cx) (cx_frags cx') same_data P (fun x => In x l) (fun x => In x l') ->
  (exists m, forall n', m <= n' -> exists ws', document_file n' cx' c o' d' ws' co) /\
  (forall n' ws' r', compile_definition n' cx' d' = Some (ws', r') ->
     exists op', r' = Ok op' /\ compile_ir c o' (cx_schema cx) op' = Ok co).
Proof.
  intros n cx cx' c o o' d d' ws co P l l' Co O Oo O' Oo' Es (op & Hd & Hi) Dr Su Fv St Sh Dr' V' Cs.
  destruct (head_parts _ _ _ _ Sh Dr) as (l2 & Dr2 & En & Ek & Esu & Vs). rewrite Dr' in Dr2. injection Dr2 as <-. rewrite Su in Esu.
  destruct (document_collected _ _ _ _ _ _ _ O Co Hd Dr Su Fv) as [V K].
  pose proof (compile_result cx O Co _ _ _ _ Hd) as R. inversion R as [| | | |P0 p l0 ws0 op0 Rt C X Ev Sh0 En1 Ek1]; subst.
  pose proof (code_root_doc d Su) as E. rewrite Rt, Dr in E. cbn in E. injection E as -> ->.
  pose proof (vars_same _ _ _ _ Vs Ev) as Ev'. pose proof Co as Co'. rewrite <- Es in V', Ev', Co', C.
  destruct (PropC48.valid_operation cx' d' P l' O' Co' Dr' Esu C V' _ Ev') as [m Hm].
  assert (Same : forall n' ws' op', compile_definition n' cx' d' = Some (ws', Ok op') -> op' = op).
  { intros n' ws' op' H'. pose proof (compile_result cx' O' Co' _ _ _ _ H') as R'. inversion R' as [| | | |P1 p1 l1 ws1 op1 Rt1 C1 X1 Ev1 Sh1 En2 Ek2]; subst.
    pose proof (code_root_doc d' Esu) as E. rewrite Rt1, Dr' in E. cbn in E. injection E as -> ->.
    assert (Fv' : frags_valid (cx_schema cx') (cx_frags cx') l') by (intros x fd S A; eapply valid_spreads; eauto).
    destruct (document_collected _ _ _ _ _ _ _ O' Co' H' Dr' Esu Fv') as [_ K']. rewrite Es in K'.
    pose proof (coll_det2 _ _ _ Co same_data (fun _ _ Z => Z) _ _ _ Cs St _ _ K K') as Ec.
    rewrite Ev' in Ev1. injection Ev1 as Ev1. destruct op, op'. cbn in *. congruence. }
  assert (Hi' : compile_ir c o' (cx_schema cx) op = Ok co) by (rewrite (compile_ir_eq c o Oo) in Hi; rewrite (compile_ir_eq c o' Oo'); exact Hi).
  split.
  - exists m. intros n' L. destruct (Hm n' L) as (ws' & op' & H'). rewrite (Same _ _ _ H') in H'. exists ws', op. rewrite Es. auto.
  - intros n' ws' r' H'. destruct (Hm (Nat.max m n') (Nat.le_max_l _ _)) as (ws2 & op2 & H2).
    rewrite (compile_definition_mono _ _ _ _ _ (Nat.le_max_r m n') H') in H2. injection H2 as -> ->.
    exists op2. split; auto. rewrite (Same _ _ _ H'). auto.
Qed.
Print Assumptions C84_module_partial.

(** ** What collects the same *)
(** Fragments under other names, in the request and in the fragments themselves *)
Theorem C84_renamed : forall g s fr fr' P l, renamed_frags g fr fr' ->
  valid_sels s fr P l -> Rewrite.settled s fr P (fun x => In x l) ->
  valid_sels s fr' P (List.map (rename_sel g) l) /\
  collects_same s fr fr' same_data P (fun x => In x l) (fun x => In x (List.map (rename_sel g) l)).
Proof.
  intros g s fr fr' P l Rn V St. pose proof (proj2 (rename_recasts s fr fr' g Rn) P l V) as R. split.
  - exact (proj2 (proj2 (recast_valid s fr fr') _ _ R) P V).
  - apply recast_collects; [exact St|]. apply recasts_told. exact R.
Qed.
Print Assumptions C84_renamed.
(** A spread in the place of an inline fragment, or the other way round, or a spread of another fragment, anywhere *)
Theorem C84_recast : forall s fr fr' P l l', recasts fr fr' l l' ->
  valid_sels s fr P l -> Rewrite.settled s fr P (fun x => In x l) ->
  valid_sels s fr' P l' /\ collects_same s fr fr' same_data P (fun x => In x l) (fun x => In x l').
Proof.
  intros s fr fr' P l l' R V St. split.
  - exact (proj2 (proj2 (recast_valid s fr fr') _ _ R) P V).
  - apply recast_collects; [exact St|]. apply recasts_told. exact R.
Qed.
Print Assumptions C84_recast.
(** The rewritings of C48, which keep the fragments; and one change after another *)
Theorem C84_rewritten : forall s fr P l l', rewrites s fr P l l' -> composite s P ->
  valid_sels s fr P l -> Rewrite.settled s fr P (fun x => In x l) ->
  valid_sels s fr P l' /\ collects_same s fr fr same_data P (fun x => In x l) (fun x => In x l').
Proof.
  intros s fr P l l' R C V St. destruct (PropC48.rewrites_alike _ _ _ _ _ R C V St) as [V' A]. split; [exact V'|].
  apply alike_collects. apply PropC48.alike_same. exact A.
Qed.
Print Assumptions C84_rewritten.
Theorem C84_composed : forall s fr fr' fr'' P (M M' M'' : selset),
  Rewrite.settled s fr P M -> collects_same s fr fr' same_data P M M' -> collects_same s fr' fr'' same_data P M' M'' ->
  Rewrite.settled s fr' P M' /\ collects_same s fr fr'' same_data P M M'' /\ collects_same s fr' fr same_data P M' M.
Proof.
  intros s fr fr' fr'' P M M' M'' St A B. split; [eapply collects_settled; eauto|]. split; [eapply collects_trans; eauto|apply collects_back; exact A].
Qed.
Print Assumptions C84_composed.

(** ** Two runs *)
(** What is compiled for a source is a function of the state of the files *)
Lemma compiles_once fuel e f c s path ms co ms' co' : file_compiles fuel e f c s path ms co -> file_compiles fuel e f c s path ms' co' -> co' = co.
Proof.
  intros (x1 & x2 & x3 & x4 & x5 & x6 & x7 & x8 & A1 & A2 & A3 & A4 & A5 & A6 & _) (y1 & y2 & y3 & y4 & y5 & y6 & y7 & y8 & B1 & B2 & B3 & B4 & B5 & B6 & _).
  rewrite A1 in B1. injection B1 as <-. rewrite A2 in B2. injection B2 as <-. rewrite A3 in B3. injection B3 as <- <-.
  rewrite A4 in B4. injection B4 as <- <-. rewrite A5 in B5. injection B5 as <- <-. rewrite A6 in B6. injection B6 as <-. reflexivity.
Qed.

(** The source [path] of one project and the source [path'] of another ask for the same *)
Definition same_source (s : schema) (c c' : cconfig) (e e' : env) (f f' : fs) (path path' : string) : Prop :=
  exists contents d frags P l contents' d' frags' l',
    f (env_locate e path) = Ok contents /\ env_parse e contents = Ok [d] /\ PropC07.imported_fragments e f c path contents frags /\
    f' (env_locate e' path') = Ok contents' /\ env_parse e' contents' = Ok [d'] /\ PropC07.imported_fragments e' f' c' path' contents' frags' /\
    doc_root d = Some (P, l) /\ is_subscription d = false /\ Rewrite.settled s frags P (fun x => In x l) /\
    same_head d d' /\ doc_root d' = Some (P, l') /\ collects_same s frags frags' same_data P (fun x => In x l) (fun x => In x l').

Lemma runs_compiled : forall fuel fuel' wo wo' a a' sched sched' cf cf' js s out out' f' g',
  let rc := merge_config (wo_ncpus wo) a cf in
  let rc' := merge_config (wo_ncpus wo') a' cf' in
  let c := cconfig_of rc in
  let c' := cconfig_of rc' in
  let e := wo_env wo in
  let e' := wo_env wo' in
  LinkFacts.settled wo a cf js s -> LinkFacts.settled wo' a' cf' js s -> same_output_options c c' ->
  wo_schema wo (rc_schema_path rc) = SRDecoded js -> wo_schema wo' (rc_schema_path rc') = SRDecoded js ->
  (forall text ds d, env_parse e text = Ok ds -> In d ds -> parsed_named d) ->
  (forall text ds d, env_parse e' text = Ok ds -> In d ds -> parsed_named d) ->
  qlc fuel wo a sched = Exited 0 out f' -> qlc fuel' wo' a' sched' = Exited 0 out' g' ->
  forall path path', is_source (wo_listing wo) (rc_root_dir rc) path -> is_source (wo_listing wo') (rc_root_dir rc') path' ->
    same_source s c c' e e' (wo_fs wo) (wo_fs wo') path path' ->
    exists co ms ms', f' (out_loc e path) = Ok (co_contents co) /\ g' (out_loc e' path') = Ok (co_contents co) /\
      file_compiles fuel e (wo_fs wo) c s path ms co /\ file_compiles fuel' e' (wo_fs wo') c' s path' ms' co.
Proof.
  intros fuel fuel' wo wo' a a' sched sched' cf cf' js s out out' f' g' rc rc' c c' e e' Se Se' Ec Es Es' Pn Pn' H H' path path' Sp Sp'
    (contents & d & frags & P & l & contents' & d' & frags' & l' & Er & Ep & If & Er' & Ep' & If' & Dr & Su & St & Sh & Dr' & Cs).
  pose proof Se as [_ In0 _ _ _ _ _ _ _ _ _]. pose proof (intro_consistent _ _ In0) as Co.
  destruct (run_compiled fuel wo a sched cf js s out f' Se Es Pn H) as (Outs & _).
  destruct (run_compiled fuel' wo' a' sched' cf' js s out' g' Se' Es' Pn' H') as (Outs' & _).
  destruct (Outs path Sp) as (x & d1 & fr & ws & co & A1 & A2 & A3 & A4 & A5 & A6 & A7 & A8 & _ & _ & ms & A9).
  destruct (Outs' path' Sp') as (x' & d1' & fr' & ws' & co' & B1 & B2 & B3 & B4 & B5 & B6 & B7 & B8 & _ & _ & ms' & B9).
  clear Outs Outs'. fold rc' in B3, B4, B9. fold c' in B3, B4, B9.
  assert (x = contents) by (assert (X : wo_fs wo (env_locate e path) = Ok x) by exact A1; congruence). subst x.
  assert (d1 = d) by (assert (X : env_parse e contents = Ok [d1]) by exact A2; congruence). subst d1.
  assert (x' = contents') by (assert (X : wo_fs wo' (env_locate e' path') = Ok x') by exact B1; congruence). subst x'.
  assert (d1' = d') by (assert (X : env_parse e' contents' = Ok [d1']) by exact B2; congruence). subst d1'.
  pose proof (fragments_agree _ _ _ _ _ _ _ A3 If) as Ag. pose proof (fragments_agree _ _ _ _ _ _ _ B3 If') as Ag'.
  destruct (A8 Su) as (P1 & l1 & Dr1 & _ & Fv). assert (Z : P1 = P /\ l1 = l) by (rewrite Dr in Dr1; injection Dr1; auto). destruct Z as [-> ->].
  assert (Su' : is_subscription d' = false) by (destruct (head_parts _ _ _ _ Sh Dr) as (l2 & _ & _ & _ & E & _); congruence).
  destruct (B8 Su') as (P2 & l2 & Dr2 & V2 & _). assert (Z : P2 = P /\ l2 = l') by (rewrite Dr' in Dr2; injection Dr2; auto). destruct Z as [-> ->].
  destruct (C84_module_partial fuel (file_ctx e c s path fr) (file_ctx e' c' s path' fr') c (suborder (env_order e path) [2; 0]) (suborder (env_order e' path') [2; 0])
    d d' ws co P l l' Co A5 A6 B5 B6 eq_refl A4 Dr Su Fv) as [_ K]; cbn [file_ctx cx_schema cx_frags] in *.
  - eapply settled_ext; [intros n; symmetry; apply Ag|exact St|tauto].
  - exact Sh.
  - exact Dr'.
  - exact V2.
  - eapply collects_ext; [intros n; symmetry; apply Ag|intros n; symmetry; apply Ag'|exact Cs|tauto|tauto].
  - destruct B4 as (op' & C1 & C2). destruct (K _ _ _ C1) as (op2 & E2 & C3). injection E2 as <-. cbn [file_ctx cx_schema] in C2.
    assert (co' = co) by (assert (Y : compile_ir c (suborder (env_order e' path') [2; 0]) s op' = Ok co') by (rewrite (placed_ir c c' Ec); exact C2); congruence). subst co'.
    exists co, ms, ms'. auto.
Qed.

(** Two projects, with the same schema and the same options for what is generated (the root directory and the prefix of
    import lines may be others).  A source of the one, and a source
    of the other that asks for the same: their outputs are the same *)
Theorem C84_run_partial : forall fuel fuel' wo wo' a a' sched sched' cf cf' js s out out' f' g',
  let rc := merge_config (wo_ncpus wo) a cf in
  let rc' := merge_config (wo_ncpus wo') a' cf' in
  let c := cconfig_of rc in
  let c' := cconfig_of rc' in
  let e := wo_env wo in
  let e' := wo_env wo' in
  LinkFacts.settled wo a cf js s -> LinkFacts.settled wo' a' cf' js s -> same_output_options c c' ->
  wo_schema wo (rc_schema_path rc) = SRDecoded js -> wo_schema wo' (rc_schema_path rc') = SRDecoded js ->
  (forall text ds d, env_parse e text = Ok ds -> In d ds -> parsed_named d) ->
  (forall text ds d, env_parse e' text = Ok ds -> In d ds -> parsed_named d) ->
  qlc fuel wo a sched = Exited 0 out f' -> qlc fuel' wo' a' sched' = Exited 0 out' g' ->
  (* one file *)
  (forall path path', is_source (wo_listing wo) (rc_root_dir rc) path -> is_source (wo_listing wo') (rc_root_dir rc') path' ->
    same_source s c c' e e' (wo_fs wo) (wo_fs wo') path path' ->
    exists text, f' (out_loc e path) = Ok text /\ g' (out_loc e' path') = Ok text) /\
  (* all files: then the files of globals are the same, too *)
  ((forall path, is_source (wo_listing wo) (rc_root_dir rc) path -> exists path', is_source (wo_listing wo') (rc_root_dir rc') path' /\
      same_source s c c' e e' (wo_fs wo) (wo_fs wo') path path') ->
   (forall path', is_source (wo_listing wo') (rc_root_dir rc') path' -> exists path, is_source (wo_listing wo) (rc_root_dir rc) path /\
      same_source s c c' e e' (wo_fs wo) (wo_fs wo') path path') ->
   (forall n, uses_global fuel e (wo_listing wo) c s (rc_root_dir rc) (wo_fs wo) n <-> uses_global fuel' e' (wo_listing wo') c' s (rc_root_dir rc') (wo_fs wo') n) /\
   ((exists n, uses_global fuel e (wo_listing wo) c s (rc_root_dir rc) (wo_fs wo) n) ->
    exists text, f' (env_locate e (globals_path c (rc_root_dir rc))) = Ok text /\ g' (env_locate e' (globals_path c' (rc_root_dir rc'))) = Ok text)).
Proof.
  intros fuel fuel' wo wo' a a' sched sched' cf cf' js s out out' f' g' rc rc' c c' e e' Se Se' Ec Es Es' Pn Pn' H H'.
  pose proof (runs_compiled fuel fuel' wo wo' a a' sched sched' cf cf' js s out out' f' g' Se Se' Ec Es Es' Pn Pn' H H') as K. fold rc rc' in K. fold c c' e e' in K.
  split.
  { intros path path' Sp Sp' Ss. destruct (K path path' Sp Sp' Ss) as (co & _ & _ & A & B & _). eauto. }
  intros To From.
  assert (U : forall n, uses_global fuel e (wo_listing wo) c s (rc_root_dir rc) (wo_fs wo) n <-> uses_global fuel' e' (wo_listing wo') c' s (rc_root_dir rc') (wo_fs wo') n).
  { intros n. split; intros (path & ms & co & Sp & Fc & I).
    - destruct (To path Sp) as (path' & Sp' & Ss). destruct (K path path' Sp Sp' Ss) as (co1 & ms1 & ms1' & _ & _ & F & F').
      rewrite (compiles_once _ _ _ _ _ _ _ _ _ _ F Fc) in I. exists path', ms1', co1. auto.
    - destruct (From path Sp) as (path' & Sp' & Ss). destruct (K path' path Sp' Sp Ss) as (co1 & ms1 & ms1' & _ & _ & F & F').
      rewrite (compiles_once _ _ _ _ _ _ _ _ _ _ F' Fc) in I. exists path', ms1, co1. auto. }
  split; [exact U|]. intros Ex.
  pose proof Se as [Lc In0 Jn N S Gd Ho C _ _ Th]. pose proof Se' as [Lc' In0' Jn' N' S' Gd' Ho' C' _ _ Th']. pose proof (in_loaded _ _ In0) as L.
  assert (Ls : parse_schema (rc_schema_path rc) (wo_schema wo (rc_schema_path rc)) = Ok s) by (rewrite Es; cbn [parse_schema]; rewrite L; reflexivity).
  assert (Ls' : parse_schema (rc_schema_path rc') (wo_schema wo' (rc_schema_path rc')) = Ok s) by (rewrite Es'; cbn [parse_schema]; rewrite L; reflexivity).
  assert (G : exists text l ds, f' (env_locate e (globals_path c (rc_root_dir rc))) = Ok text /\ NoDup (List.map fst l) /\ sorted_by fst l /\
         (forall n t, In (n, t) l <-> (exists r, uses_global fuel e (wo_listing wo) c s (rc_root_dir rc) (wo_fs wo) r /\ SpecGlobal.leads s r n) /\ get_type s n = Some t) /\
         Forall2 (fun x d => def_text c (fst x) (snd x) d) l ds /\ text = header +++ join (nl +++ nl) ds).
  { destruct Th as [One|[Pos Fl]].
    - destruct (C49_end_to_end fuel wo a sched cf s out f' Lc Ls N S Gd Ho C One H) as (_ & B & _). destruct (B Ex) as (text & l & ds & B1 & B2 & B3 & B4 & B5 & B6 & _). exists text, l, ds. auto 8.
    - destruct (C49_flat fuel wo a sched cf s out f' Lc Ls N S Gd Ho C Pos Fl H) as (_ & B & _). destruct (B Ex) as (text & l & ds & B1 & B2 & B3 & B4 & B5 & B6 & _). exists text, l, ds. auto 8. }
  assert (Ex' : exists n, uses_global fuel' e' (wo_listing wo') c' s (rc_root_dir rc') (wo_fs wo') n) by (destruct Ex as (n & X); exists n; apply U; exact X).
  assert (G' : exists text l ds, g' (env_locate e' (globals_path c' (rc_root_dir rc'))) = Ok text /\ NoDup (List.map fst l) /\ sorted_by fst l /\
         (forall n t, In (n, t) l <-> (exists r, uses_global fuel' e' (wo_listing wo') c' s (rc_root_dir rc') (wo_fs wo') r /\ SpecGlobal.leads s r n) /\ get_type s n = Some t) /\
         Forall2 (fun x d => def_text c' (fst x) (snd x) d) l ds /\ text = header +++ join (nl +++ nl) ds).
  { destruct Th' as [One|[Pos Fl]].
    - destruct (C49_end_to_end fuel' wo' a' sched' cf' s out' g' Lc' Ls' N' S' Gd' Ho' C' One H') as (_ & B & _). destruct (B Ex') as (text & l & ds & B1 & B2 & B3 & B4 & B5 & B6 & _). exists text, l, ds. auto 8.
    - destruct (C49_flat fuel' wo' a' sched' cf' s out' g' Lc' Ls' N' S' Gd' Ho' C' Pos Fl H') as (_ & B & _). destruct (B Ex') as (text & l & ds & B1 & B2 & B3 & B4 & B5 & B6 & _). exists text, l, ds. auto 8. }
  destruct G as (text & l & ds & G1 & G2 & G3 & G4 & G5 & G6). destruct G' as (text' & l' & ds' & G1' & G2' & G3' & G4' & G5' & G6').
  assert (l = l') as <-.
  { apply (sorted_perm_eq fst); auto. apply NoDup_Permutation.
    - eapply NoDup_map_inv; eauto.
    - eapply NoDup_map_inv; eauto.
    - intros [n t]. rewrite G4, G4'. split; intros [(r & X & Y) Z]; (split; [exists r; split; [apply U; exact X|exact Y]|exact Z]). }
  assert (ds = ds') as <-.
  { assert (Gt : forall n t, In (n, t) l -> get_type s n = Some t) by (intros n t I; apply G4; exact I).
    clear - C Ec Gt G5 G5'. revert ds' G5'. induction G5 as [|[n t] d l ds X _ IH]; intros ds' G5'; inversion G5' as [|? d' ? ds2 X' F2]; subst; auto. f_equal.
    - apply (placed_text c c' Ec) in X'. eapply def_text_unique; eauto. intros fields E. apply (C n t n fields); auto. apply Gt. left; reflexivity.
    - apply IH; auto. intros; apply Gt; right; auto. }
  exists text. split; [exact G1|]. rewrite G1'. congruence.
Qed.
Print Assumptions C84_run_partial.

(** *** From texts to texts *)
Theorem C84_text_partial : forall ck complaint complaint' jerr jerr' help help' version version' fuel fuel' wo wo' its its' argv argv' a a' nc nc'
    sched sched' cf cf' stext stext' j j' js s out out' f' g',
  let rc := merge_config (wo_ncpus wo) a cf in
  let rc' := merge_config (wo_ncpus wo') a' cf' in
  let c := cconfig_of rc in
  let c' := cconfig_of rc' in
  let e := wo_env wo in
  let e' := wo_env wo' in
  on_disk ck complaint jerr wo -> on_disk ck complaint' jerr' wo' ->
  SpecArgs.spelled its argv -> SpecArgs.consistent its -> SpecArgs.complete its -> SpecArgs.says its a nc ->
  SpecArgs.spelled its' argv' -> SpecArgs.consistent its' -> SpecArgs.complete its' -> SpecArgs.says its' a' nc' ->
  LinkFacts.settled wo a cf js s -> LinkFacts.settled wo' a' cf' js s -> same_output_options c c' ->
  wo_fs wo (env_locate e (rc_schema_path rc)) = Ok stext -> text_holds stext j -> says_schema j js ->
  wo_fs wo' (env_locate e' (rc_schema_path rc')) = Ok stext' -> text_holds stext' j' -> says_schema j' js -> fits js ->
  qlc_command help version fuel wo argv sched = Exited 0 out f' -> qlc_command help' version' fuel' wo' argv' sched' = Exited 0 out' g' ->
  forall path contents d frags P l path' contents' d' frags' l',
    is_source (wo_listing wo) (rc_root_dir rc) path -> is_source (wo_listing wo') (rc_root_dir rc') path' ->
    wo_fs wo (env_locate e path) = Ok contents -> text_says ck contents [d] -> PropC07.imported_fragments e (wo_fs wo) c path contents frags ->
    wo_fs wo' (env_locate e' path') = Ok contents' -> text_says ck contents' [d'] -> PropC07.imported_fragments e' (wo_fs wo') c' path' contents' frags' ->
    doc_root d = Some (P, l) -> is_subscription d = false -> Rewrite.settled s frags P (fun x => In x l) ->
    same_head d d' -> doc_root d' = Some (P, l') -> collects_same s frags frags' same_data P (fun x => In x l) (fun x => In x l') ->
    exists text, f' (out_loc e path) = Ok text /\ g' (out_loc e' path') = Ok text.
Proof.
  intros ck complaint complaint' jerr jerr' help help' version version' fuel fuel' wo wo' its its' argv argv' a a' nc nc'
    sched sched' cf cf' stext stext' j j' js s out out' f' g' rc rc' c c' e e' [Hd Hs] [Hd' Hs'] Sp Cn Cm Sy Sp' Cn' Cm' Sy' Se Se' Ec Es Th Sj Es' Th' Sj' Fi H H'
    path contents d frags P l path' contents' d' frags' l' Src Src' Er Td If Er' Td' If' Dr Su St Sh Dr' Cs.
  assert (Pa : parse_args argv = URun a nc) by (apply PropC65.C65_exact; eauto).
  assert (Pa' : parse_args argv' = URun a' nc') by (apply PropC65.C65_exact; eauto).
  assert (Hq : qlc fuel wo a sched = Exited 0 out f') by (unfold qlc_command in H; rewrite Pa in H; exact H).
  assert (Hq' : qlc fuel' wo' a' sched' = Exited 0 out' g') by (unfold qlc_command in H'; rewrite Pa' in H'; exact H').
  assert (Sc : wo_schema wo (rc_schema_path rc) = SRDecoded js) by (rewrite (Hs _ _ Es); apply PropC67.C67_schema; eauto).
  assert (Sc' : wo_schema wo' (rc_schema_path rc') = SRDecoded js) by (rewrite (Hs' _ _ Es'); apply PropC67.C67_schema; eauto).
  assert (Pn : forall text ds d, env_parse e text = Ok ds -> In d ds -> parsed_named d).
  { intros text ds d0 E I. rewrite Hd in E. destruct (parse_query ck text) as [ds'|] eqn:Ep; [|discriminate]. injection E as ->. eapply C69_named; eauto. }
  assert (Pn' : forall text ds d, env_parse e' text = Ok ds -> In d ds -> parsed_named d).
  { intros text ds d0 E I. rewrite Hd' in E. destruct (parse_query ck text) as [ds'|] eqn:Ep; [|discriminate]. injection E as ->. eapply C69_named; eauto. }
  assert (Epd : env_parse e contents = Ok [d]) by (rewrite Hd; apply C69_text in Td; rewrite Td; reflexivity).
  assert (Epd' : env_parse e' contents' = Ok [d']) by (rewrite Hd'; apply C69_text in Td'; rewrite Td'; reflexivity).
  apply (proj1 (C84_run_partial fuel fuel' wo wo' a a' sched sched' cf cf' js s out out' f' g' Se Se' Ec Sc Sc' Pn Pn' Hq Hq') path path' Src Src').
  exists contents, d, frags, P, l, contents', d', frags', l'. auto 16.
Qed.
Print Assumptions C84_text_partial.

(** ** Non-vacuity: the files of C72, with [PetName] written inline, and with what [pets] selects as a fragment *)
Definition recast_query : string :=
  ImportWorlds.import_line "n.graphql" +++
  "query Q { all: pets { ...Label } pet { ... on Cat { extent: size } ... on Pet { name ... on Dog { owner { mood } } } ... on Dog { owner { name pet { __typename name } } } } }".
Definition recast_fragment_text : string := "fragment Label on Pet { name __typename }".
Definition recast_files : fs := ImportWorlds.files [("./g.graphql", recast_query); ("./n.graphql", recast_fragment_text); ("./schema.json", farm_text)].
Definition recast_world : world :=
  {| wo_env := text_env; wo_listing := PropC35.pair_listing; wo_ncpus := 4; wo_config := fun _ => CRNotFound "not found";
     wo_schema := fun p => match recast_files p with Ok t => schema_of_text "" t | Err m => SRIoError m end; wo_fs := recast_files |}.
Lemma recast_step file contents n l t : imports_at plain_config file contents n l t ->
  (file = "./g.graphql" /\ contents = recast_query) \/ (file = "./n.graphql" /\ contents = recast_fragment_text) -> t = "./n.graphql".
Proof.
  intros H K. pose proof (PropC35.imports_target _ _ _ _ _ _ H) as (L & E). destruct H as (q & _ & (rest & Eq & _) & _).
  destruct K as [[-> ->]|[-> ->]].
  - destruct n as [|[|[|n]]]; vm_compute in L; try discriminate; injection L as <-; [vm_compute in E; congruence|discriminate].
  - destruct n as [|[|n]]; vm_compute in L; try discriminate; injection L as <-. discriminate.
Qed.
Lemma recast_reach file contents t o : (file = "./g.graphql" /\ contents = recast_query) \/ (file = "./n.graphql" /\ contents = recast_fragment_text) ->
  reach text_env recast_files plain_config file contents t o -> t = "./n.graphql" /\ o = recast_fragment_text.
Proof.
  intros K R. induction R as [n l t o A Eo|mid mc n l t o R [-> ->] A Eo].
  - apply recast_step in A; auto. subst. split; auto. unfold recast_files, ImportWorlds.files in Eo. cbn in Eo. congruence.
  - apply recast_step in A; auto. subst. split; auto. unfold recast_files, ImportWorlds.files in Eo. cbn in Eo. congruence.
Qed.
Lemma recast_read path contents : is_source PropC35.pair_listing "." path -> recast_files (env_locate text_env path) = Ok contents ->
  (path = "./g.graphql" /\ contents = recast_query) \/ (path = "./n.graphql" /\ contents = recast_fragment_text).
Proof. intros [-> | ->]%PropC35.pair_source E; [left|right]; (split; [reflexivity|]); vm_compute in E |- *; congruence. Qed.
Lemma recast_separate : separate text_env PropC35.pair_listing plain_config "." recast_files.
Proof.
  split.
  - intros x y l Hx Hy R. assert (Ey : out_loc text_env y = "./g.graphql.d.ts" \/ out_loc text_env y = "./n.graphql.d.ts").
    { apply PropC35.pair_source in Hy. destruct Hy as [-> | ->]; [left|right]; reflexivity. }
    assert (El : l = "./g.graphql" \/ l = "./n.graphql").
    { destruct R as [|contents file' contents' n l t E I A]; [apply PropC35.pair_source; auto|]. right.
      pose proof (recast_read _ _ Hx E) as K. destruct I as [[-> ->]|R].
      - eapply (recast_step x contents); eauto.
      - destruct (recast_reach _ _ _ _ K R) as [-> ->]. eapply (recast_step _ _ _ _ _ A). auto. }
    destruct El as [-> | ->], Ey as [-> | ->]; discriminate.
  - intros x y Hx Hy. apply PropC35.pair_source in Hx. apply PropC35.pair_source in Hy. destruct Hx as [-> | ->], Hy as [-> | ->]; auto; discriminate.
Qed.
Lemma recast_settled : LinkFacts.settled recast_world (args_threads 1) config_default farm_json farm.
Proof.
  destruct PropC35.C35_nonvacuous as (_ & _ & _ & N & _ & _ & _ & C & _).
  constructor; auto.
  - exact farm_intro.
  - apply json_nameableb_ok. vm_compute. reflexivity.
  - exact recast_separate.
  - intros p Sp. apply PropC35.pair_source in Sp. destruct Sp as [-> | ->]; discriminate.
  - intros p. exact plain_ok.
  - intros a b x y Pe Ea Eb. apply path_eqb_same in Pe. change (recast_files a = Ok x) in Ea. change (recast_files b = Ok y) in Eb. unfold recast_files, ImportWorlds.files in Ea, Eb. cbn [aget] in Ea, Eb.
    unfold eqb, EqB_string in Ea, Eb.
    destruct (String.eqb_spec a "./g.graphql") as [->|]; [|destruct (String.eqb_spec a "./n.graphql") as [->|]; [|destruct (String.eqb_spec a "./schema.json") as [->|]; [|discriminate]]];
    (destruct (String.eqb_spec b "./g.graphql") as [->|]; [|destruct (String.eqb_spec b "./n.graphql") as [->|]; [|destruct (String.eqb_spec b "./schema.json") as [->|]; [|discriminate]]]); congruence || discriminate.
  - intros path contents t o Sp E R. pose proof (recast_read _ _ Sp E) as K. destruct (recast_reach _ _ _ _ K R) as [-> _].
    apply PropC35.pair_is_source. auto.
Qed.
Definition recast_doc : definition := Eval vm_compute in match parse_query lenient recast_query with Some [d] => d | _ => DFrag pet_name end.
Definition recast_fragment : fragdef := Eval vm_compute in match parse_query lenient recast_fragment_text with Some [DFrag d] => d | _ => pet_name end.
Definition recast_sels : list selection := Eval vm_compute in match doc_root recast_doc with Some (_, l) => l | None => [] end.
Lemma recast_fragments : PropC07.imported_fragments text_env recast_files plain_config "./g.graphql" recast_query [("Label", recast_fragment)].
Proof.
  intros n fd. split.
  - intros E. cbn [aget] in E. destruct (eqb n "Label") eqn:En; [|discriminate]. injection E as <-. apply String.eqb_eq in En. subst n.
    exists "./n.graphql", recast_fragment_text. split; [|split; [vm_compute; reflexivity|reflexivity]].
    eapply (reach_one _ _ _ _ _ 0 (import_mark +++ "n.graphql" +++ String quote "")); [|vm_compute; reflexivity].
    exists "n.graphql". split; [split; [vm_compute; reflexivity|intros k l' Lt; lia]|]. split.
    + exists "". split; [reflexivity|]. intros X. inversion X.
    + apply (resolves_root plain_config _ "n.graphql").
      * intros r (p & X & _). discriminate.
      * intros r. discriminate.
  - intros (t & o & R & Hf & <-). destruct (recast_reach _ _ _ _ (or_introl (conj eq_refl eq_refl)) R) as [-> ->].
    vm_compute in Hf. injection Hf as <-. reflexivity.
Qed.
Lemma disk_said_once : Rewrite.settled farm [("PetName", disk_fragment)] "Query" (fun x => In x disk_sels).
Proof. apply PropC48.regular_settled; [apply PropC48.undocumented_ok; vm_compute; reflexivity|exact disk_regular]. Qed.
Definition wrapped_sels : list selection :=
  match disk_sels with
  | [pet; SField p al n a d sub] => [SField p al n a d [SInline p (Some "Pet") [] sub]; pet]
  | l => l
  end.
Lemma disk_wrapped : rewrites farm [("PetName", disk_fragment)] "Query" disk_sels wrapped_sels.
Proof.
  unfold disk_sels, wrapped_sels. eapply rw_step; [|eapply rw_step; [|apply rw_refl]].
  - apply st_set with (l' := match disk_sels with [a; b] => [b; a] | l => l end). intros x. cbn. tauto.
  - unfold disk_sels. eapply (st_field _ _ "Query" _ (Some "all") "pets" [] [] _ _ (Some "all") [] []); [apply field_get_ok; vm_compute; reflexivity|reflexivity|].
    match goal with |- step _ _ _ ?u _ => rewrite <- (app_nil_r u) at 1 end. apply st_wrap. discriminate.
Qed.
Ltac recasting := repeat (cbn [fr_sels disk_fragment recast_fragment]; first [apply rc_nil | apply rc_cons | apply rc_field; [reflexivity|] | eapply rc_narrow; [apply nw_inline|apply nw_inline|]]).
Lemma wrapped_recast : recasts [("PetName", disk_fragment)] [("Label", recast_fragment)] wrapped_sels recast_sels.
Proof.
  unfold wrapped_sels, disk_sels, recast_sels. apply rc_cons; [apply rc_field; [reflexivity|]|apply rc_cons; [apply rc_field; [reflexivity|]|apply rc_nil]].
  - apply rc_cons; [|apply rc_nil]. eapply (rc_narrow _ _ _ _ "Pet" _ (fr_sels recast_fragment)); [apply nw_inline|apply (nw_spread _ _ _ _ recast_fragment); reflexivity|]. recasting.
  - match goal with |- recasts _ _ _ [?x; ?y; ?z] => apply rc_set with (l' := [y; z; x]) end; [|intros w; cbn; tauto].
    apply rc_cons; [|recasting]. eapply (rc_narrow _ _ _ _ "Pet" (fr_sels disk_fragment)); [apply (nw_spread _ _ _ _ disk_fragment); reflexivity|apply nw_inline|]. recasting.
Qed.
Lemma disk_valid : valid_sels farm [("PetName", disk_fragment)] "Query" disk_sels.
Proof. apply (validb_ok _ _ 9). vm_compute. reflexivity. Qed.
Lemma disk_recast : collects_same farm [("PetName", disk_fragment)] [("Label", recast_fragment)] same_data "Query" (fun x => In x disk_sels) (fun x => In x recast_sels).
Proof.
  assert (C : composite farm "Query") by (eexists; split; [vm_compute; reflexivity|exact Logic.I]).
  destruct (C84_rewritten _ _ _ _ _ disk_wrapped C disk_valid disk_said_once) as [V1 C1].
  pose proof (collects_settled _ _ _ _ _ _ C1 disk_said_once) as S1.
  exact (collects_trans _ _ _ _ _ _ _ C1 _ (proj2 (C84_recast _ _ _ _ _ _ wrapped_recast V1 S1))).
Qed.
Example C84_nonvacuous : exists out f' out' g' text,
  qlc_command "" "" 30 disk_world ["--num-threads"; "1"] (repeat 0 90) = Exited 0 out f' /\
  qlc_command "" "" 30 recast_world ["--num-threads"; "1"] (repeat 0 90) = Exited 0 out' g' /\
  f' "./g.graphql.d.ts" = Ok text /\ g' "./g.graphql.d.ts" = Ok text /\ f' "./n.graphql.d.ts" <> g' "./n.graphql.d.ts".
Proof.
  assert (Pa : parse_args ["--num-threads"; "1"] = URun (args_threads 1) false) by reflexivity.
  apply PropC65.C65_exact in Pa. destruct Pa as (its & Sp & Cn & Cm & Sy).
  assert (X : exists j, text_holds farm_text j /\ says_schema j farm_json /\ fits farm_json) by (apply (PropC67.C67_schema ""); exact farm_text_read).
  destruct X as (j & Th & Sj & Fi).
  assert (H : exists out f' out' g', qlc_command "" "" 30 disk_world ["--num-threads"; "1"] (repeat 0 90) = Exited 0 out f' /\
    qlc_command "" "" 30 recast_world ["--num-threads"; "1"] (repeat 0 90) = Exited 0 out' g' /\ f' "./n.graphql.d.ts" <> g' "./n.graphql.d.ts").
  { do 4 eexists. split; [vm_compute; reflexivity|]. split; [vm_compute; reflexivity|]. vm_compute. discriminate. }
  destruct H as (out & f' & out' & g' & H & H' & Ne).
  assert (Dk : on_disk lenient (fun _ => "syntax error") "" disk_world).
  { split; [reflexivity|]. intros p t E. cbn [disk_world wo_schema]. cbn [disk_world wo_fs wo_env] in E. change (disk_files p = Ok t) in E. rewrite E. reflexivity. }
  assert (Dk' : on_disk lenient (fun _ => "syntax error") "" recast_world).
  { split; [reflexivity|]. intros p t E. cbn [recast_world wo_schema]. cbn [recast_world wo_fs wo_env] in E. change (recast_files p = Ok t) in E. rewrite E. reflexivity. }
  destruct (C84_text_partial lenient (fun _ => "syntax error") (fun _ => "syntax error") "" "" "" "" "" "" 30 30 disk_world recast_world its its ["--num-threads"; "1"] ["--num-threads"; "1"]
    (args_threads 1) (args_threads 1) false false (repeat 0 90) (repeat 0 90) config_default config_default farm_text farm_text j j farm_json farm out out' f' g'
    Dk Dk' Sp Cn Cm Sy Sp Cn Cm Sy disk_settled recast_settled (conj eq_refl (conj eq_refl (conj eq_refl (conj eq_refl eq_refl)))) eq_refl Th Sj eq_refl Th Sj Fi H H')
    with (path := "./g.graphql") (contents := barn_query) (d := disk_doc) (frags := [("PetName", disk_fragment)]) (P := "Query") (l := disk_sels)
         (path' := "./g.graphql") (contents' := recast_query) (d' := recast_doc) (frags' := [("Label", recast_fragment)]) (l' := recast_sels) as (text & A & B).
  - apply PropC35.pair_is_source. auto.
  - apply PropC35.pair_is_source. auto.
  - reflexivity.
  - apply C69_text. vm_compute. reflexivity.
  - exact disk_fragments.
  - reflexivity.
  - apply C69_text. vm_compute. reflexivity.
  - exact recast_fragments.
  - reflexivity.
  - reflexivity.
  - exact disk_said_once.
  - cbn. repeat split; auto. constructor.
  - reflexivity.
  - exact disk_recast.
  - exists out, f', out', g', text. auto.
Qed.

(** ** Refutation *)
(** A field described in the interface and in the object type: with one of the two selections in a fragment, which is
    spread first, the description of the other is written *)
Definition told_fragment : fragdef := {| fr_pos := at_pos 1 1; fr_name := "F"; fr_cond := "Dog"; fr_dirs := []; fr_sels := [leaf 4 "name"] |}.
Definition told_cx' : ctx := {| cx_schema := PropC48.told; cx_deprecations := false; cx_frags := [("F", told_fragment)]; cx_order := plain_order |}.
Theorem C84_refuted : exists l l' ws co ws' co',
  load_schema PropC48.told_json = Ok PropC48.told /\ consistent PropC48.told /\ regular PropC48.told [] "Query" (fun x => In x l) /\
  valid_sels PropC48.told [] "Query" l /\ recasts [] [("F", told_fragment)] l l' /\
  document_file 20 PropC48.told_cx plain_config plain_order (query l) ws co /\
  document_file 20 told_cx' plain_config plain_order (query l') ws' co' /\ co_contents co <> co_contents co'.
Proof.
  exists (PropC48.told_sels (leaf 3 "name") (on 4 "Dog" [leaf 4 "name"])), (PropC48.told_sels (spread 4 "F") (leaf 3 "name")).
  do 4 eexists. split; [vm_compute; reflexivity|]. split; [apply consistentb_ok; vm_compute; reflexivity|].
  split; [apply (regularb_ok PropC48.told [] 12 "Query" (PropC48.told_sels (leaf 3 "name") (on 4 "Dog" [leaf 4 "name"]))); [vm_compute; reflexivity|tauto]|].
  split; [apply (validb_ok PropC48.told [] 9); vm_compute; reflexivity|]. split.
  - apply rc_cons; [|apply rc_nil]. apply rc_field; [reflexivity|]. apply rc_set with (l' := [leaf 3 "name"; spread 4 "F"]); [|intros z; cbn; tauto].
    apply rc_cons; [apply rc_field; [reflexivity|apply rc_nil]|]. apply rc_cons; [|apply rc_nil].
    eapply (rc_narrow _ _ _ _ "Dog" _ (fr_sels told_fragment)); [apply nw_inline|apply (nw_spread _ _ _ _ told_fragment); reflexivity|].
    apply rc_cons; [apply rc_field; [reflexivity|apply rc_nil]|apply rc_nil].
  - split; [eexists; split; vm_compute; reflexivity|]. split; [eexists; split; vm_compute; reflexivity|]. vm_compute. discriminate.
Qed.
Print Assumptions C84_refuted.
