(** C89: with a schema that promises more, and a document that selects more, the exported type is assignable to the type before. *)
From Verif Require Import LinkData LinkExt IntroCheck ShareWorlds GlobalRead JsonCheck WrittenEq Package RespFacts RunFacts RequestFacts SpecExact ExactFacts PropC56 PropC04 PropC43 PropC49 PropC18 PropC35.
From Verif Require Import Gql Json Args SpecGtext SpecJson SpecJtext GlayoutFacts PropC69 PropC72 PropC74 PropC82 PropC83 PropC88 PromiseFacts.
From Verif Require SpecArgs GrowWorlds PropC13 PropC17 PropC65 PropC67.

(** Changes to the schema that keep its promises, and documents that keep their selections *)
Theorem C89_changed : forall js0 js s0 s fr0 fr P l0 l j0, introspection js0 s0 -> introspection js s -> promises_more js0 s0 js s ->
  frags_kept fr0 fr -> all_kept l0 l -> last_named jt_name P js0 j0 -> tagged_once s fr P (fun x => In x l) ->
  answers_more js0 s0 fr0 js s fr P (fun x => In x l0) P (fun x => In x l).
Proof. intros js0 js s0 s fr0 fr P l0 l j0 I0 I Pm Fk A L Tg. eapply changed_answers; eauto. apply all_kept_in. exact A. Qed.
Print Assumptions C89_changed.

(** The modules of two documents, each compiled with its schema.  No condition on directives, arguments or variables, and
    none on the labels of the document that selects more.  (Full statement, false of the code:
    without [plain_wrappers], [regular], [tagged_once], [labels_apart] and the conditions on the names of leaf types.) *)
Theorem C89_module_partial : forall js0 js fuel0 fuel cx0 cx c o0 o d0 d ws0 ws co0 co P0 l0 P l (base base0 : string -> value -> Prop),
  order_ok (cx_order cx0) -> order_ok o0 -> order_ok (cx_order cx) -> order_ok o ->
  introspection js0 (cx_schema cx0) -> proper_types (cx_schema cx0) -> plain_wrappers js0 ->
  introspection js (cx_schema cx) -> proper_types (cx_schema cx) -> plain_wrappers js ->
  document_file fuel0 cx0 c o0 d0 ws0 co0 -> doc_root d0 = Some (P0, l0) -> is_subscription d0 = false ->
  document_file fuel cx c o d ws co -> doc_root d = Some (P, l) -> is_subscription d = false ->
  frags_valid (cx_schema cx0) (cx_frags cx0) l0 -> frags_valid (cx_schema cx) (cx_frags cx) l ->
  Forall (fun v => valid_gtype (vgtype v) = true) (doc_vars d0) -> NoDup (List.map vd_name (doc_vars d0)) ->
  Forall (fun v => valid_gtype (vgtype v) = true) (doc_vars d) -> NoDup (List.map vd_name (doc_vars d)) ->
  regular (cx_schema cx0) (cx_frags cx0) P0 (fun x => In x l0) -> labels_apart (cx_schema cx0) (cx_frags cx0) P0 (fun x => In x l0) ->
  regular (cx_schema cx) (cx_frags cx) P (fun x => In x l) -> tagged_once (cx_schema cx) (cx_frags cx) P (fun x => In x l) ->
  (forall x, leaf_name c js0 x -> ~ declares_name (def_name d0) x) -> (forall x, leaf_name c js x -> ~ declares_name (def_name d) x) ->
  (forall x v, leaf_name c js x -> leaf_name c js0 x -> base x v -> base0 x v) ->
  answers_more js0 (cx_schema cx0) (cx_frags cx0) js (cx_schema cx) (cx_frags cx) P0 (fun x => In x l0) P (fun x => In x l) ->
  exists m0 m, written_as cx0 c d0 co0 m0 /\ written_as cx c d co m /\
    (exists rest, tf_args m0 = def_name d0 :: rest) /\ (exists rest, tf_args m = def_name d :: rest) /\
    forall n v, accepts (tf_decls m) base n (def_name d) v -> exists k, accepts (tf_decls m0) base0 k (def_name d0) v.
Proof.
  intros js0 js fuel0 fuel cx0 cx c o0 o d0 d ws0 ws co0 co P0 l0 P l base base0 O0 O0' O O' In0 Pt0 Pw0 In Pt Pw H0 Dr0 Su0 H Dr Su Fv0 Fv Vv0 Nv0 Vv Nv R0 L0 R Tg Und0 Und B Sm.
  pose proof (intro_consistent _ _ In) as Co. pose proof (intro_consistent _ _ In0) as Co0.
  destruct (document_described _ _ _ _ _ _ _ _ _ O O' Co Pt H Dr Su Fv) as (op & ds & us & vds & vus & _ & _ & _ & K & En & Ek & Ev & Rn & Rv & Eg & Et & X).
  destruct (document_described _ _ _ _ _ _ _ _ _ O0 O0' Co0 Pt0 H0 Dr0 Su0 Fv0) as (op0 & ds0 & us0 & vds0 & vus0 & _ & _ & _ & K0 & En0 & Ek0 & Ev0 & Rn0 & Rv0 & Eg0 & Et0 & X0).
  pose proof (var_decls c _ d op vds vus Vv Ev Rv Nv) as Vd.
  pose proof (var_decls c _ d0 op0 vds0 vus0 Vv0 Ev0 Rv0 Nv0) as Vd0.
  assert (Nd0 : NoDup (List.map decl_name (ds0 ++ vds0))).
  { destruct (rnd_once c (cx_schema cx0) (cx_frags cx0) Co0 Pt0) as (_ & _ & _ & Y). specialize (Y _ _ _ _ Rn0 _ _ K0 (regular_unambiguous _ _ _ _ R0) L0).
    apply names_app; auto.
    - destruct Vd0 as [->|(ms' & -> & N)]; repeat constructor. intros [].
    - intros x y I J E. destruct Vd0 as [->|(ms' & -> & N)]; [destruct J|]. destruct J as [<-|[]]. cbn [decl_name] in E. rewrite En0 in E.
      destruct (rnd_coll_names c _ _ _ _ Rn0 x I) as [Ex|(r & Ex)]; rewrite Ex in E.
      + rewrite <- (sapp_nil_r (def_name d0)) in E at 1. apply sapp_inj_l in E. discriminate.
      + apply sapp_inj_l in E. discriminate. }
  assert (Ud : forall x y, leaf_name c js x -> List.In y (ds ++ vds) -> decl_name y <> x).
  { intros x y Lx J E. apply (Und x Lx). unfold declares_name. rewrite <- E. apply in_app_or in J. destruct J as [J|J].
    - destruct (rnd_coll_names c _ _ _ _ Rn y J) as [Ex|(r & Ex)]; eauto.
    - destruct Vd as [->|(ms' & -> & N)]; [destruct J|]. destruct J as [<-|[]]. cbn [decl_name]. rewrite En. auto. }
  assert (Ud0 : forall x y, leaf_name c js0 x -> List.In y (ds0 ++ vds0) -> decl_name y <> x).
  { intros x y Lx J E. apply (Und0 x Lx). unfold declares_name. rewrite <- E. apply in_app_or in J. destruct J as [J|J].
    - destruct (rnd_coll_names c _ _ _ _ Rn0 y J) as [Ex|(r & Ex)]; eauto.
    - destruct Vd0 as [->|(ms' & -> & N)]; [destruct J|]. destruct J as [<-|[]]. cbn [decl_name]. rewrite En0. auto. }
  exists (file_of c op0 (ds0 ++ vds0) (co_globals co0)), (file_of c op (ds ++ vds) (co_globals co)).
  split; [exact Et0|]. split; [exact Et|]. split.
  { exists (match op_kind op0 with OKFragment => [] | _ => [vars_arg op0] end). cbn [file_of tf_args]. unfold node_args. rewrite En0. destruct (op_kind op0); reflexivity. }
  split.
  { exists (match op_kind op with OKFragment => [] | _ => [vars_arg op] end). cbn [file_of tf_args]. unfold node_args. rewrite En. destruct (op_kind op); reflexivity. }
  intros n v A. cbn [file_of tf_decls] in *.
  assert (Ds0 : des c (cx_schema cx0) (cx_frags cx0) (ds0 ++ vds0) P0 (fun x => List.In x l0) (def_name d0)).
  { apply X0; auto. intros y J. apply in_or_app. auto. }
  exists (S (n + n)). refine (object_answers c js js0 (cx_schema cx) (cx_schema cx0) (cx_frags cx) (cx_frags cx0) base base0 (ds ++ vds) ds (ds0 ++ vds0) In In0 Pw Pw0 _ _ Ud Nd0 Ud0 B
    n P (fun x => List.In x l) (def_name d) P0 (fun x => List.In x l0) (def_name d0) v _ Ds0 Tg Sm A).
  - intros y J. apply in_or_app. auto.
  - eapply rnd_required. exact Rn.
  - apply X; auto. apply incl_refl.
Qed.
Print Assumptions C89_module_partial.

Lemma outside_kept c js0 s0 js amb x v : introspection js0 s0 -> json_nameable c js0 -> json_nameable c js -> aliases_apart c js0 -> aliases_apart c js -> leaves_kept js0 js ->
  leaf_name c js x -> leaf_name c js0 x -> outside_or_input js amb x v -> outside js0 amb x v.
Proof.
  intros Is0 Jn0 Jn Al0 Al [Lk Lv] Lx Lx0 Ou. pose proof (leaf_outside c js amb Jn Al x v Lx Ou) as Ou'. clear Ou. rename Ou' into Ou.
  assert (Rs : In x ["boolean"; "string"; "number"] -> reserved x) by (intros B; right; clear - B; cbn in B; vm_compute; intuition).
  destruct Ou as [[K A]|(j & vs & w & L & K & Ev & Iw & ->)].
  - left. split; auto. intros j0 L0. destruct Lx0 as [B|[(n & Si & W & Sn)|(j1 & L1 & K1)]].
    + exact (reserved_scalar c js0 x j0 Jn0 (Rs B) L0).
    + destruct (Al0 n x Sn W) as [_ Kj]. auto.
    + rewrite (last_fun _ _ _ _ _ L0 L1). destruct (Lk _ _ L1 (or_intror K1)) as (j & L & Ek). rewrite <- Ek. auto.
  - destruct Lx0 as [B|[(n & Si & W & j0 & L0 & K0)|(j1 & L1 & K1)]].
    + exfalso. pose proof (reserved_scalar c js x j Jn (Rs B) L). congruence.
    + exfalso. destruct (Lk _ _ L0 (or_introl K0)) as (j2 & L2 & Ek). rewrite K0 in Ek. destruct (Al n x (ex_intro _ j2 (conj L2 Ek)) W) as [_ Kj]. rewrite (Kj _ L) in K. discriminate.
    + right. assert (Ev0 : exists vs0, jt_enum_values j1 = Some vs0).
      { destruct (kind_def js0 s0 Is0 _ _ L1) as (t & _ & M). destruct M as [fs m E|vs0 E Ev0|E|fs ps m E|fs m E|ps m E]; try (rewrite E in K1; discriminate K1). eauto. }
      destruct Ev0 as (vs0 & Ev0). exists j1, vs0, w. repeat (split; [assumption|]). split; auto. eapply (Lv x j1 j); eauto.
Qed.

(** Two runs with exit code 0, with the same options: of a project before and after its schema and its documents were
    edited.  Both sources have outputs, and whatever the first type argument of the document that
    selects more accepts, the first type argument of the other accepts *)
Theorem C89_run_partial : forall fuel0 fuel wo0 wo a0 a sched0 sched cf0 cf js0 s0 js s out0 out f0' f',
  let rc0 := merge_config (wo_ncpus wo0) a0 cf0 in
  let rc := merge_config (wo_ncpus wo) a cf in
  let c := cconfig_of rc in
  let e0 := wo_env wo0 in
  let e := wo_env wo in
  let f0 := wo_fs wo0 in
  let f := wo_fs wo in
  settled wo0 a0 cf0 js0 s0 -> wo_schema wo0 (rc_schema_path rc0) = SRDecoded js0 ->
  settled wo a cf js s -> wo_schema wo (rc_schema_path rc) = SRDecoded js ->
  cconfig_of rc0 = c -> plain_wrappers js0 -> plain_wrappers js -> leaves_kept js0 js -> aliases_apart c js0 -> aliases_apart c js -> cc_docnode_module c <> cc_globals_module c ->
  (forall text ds d, env_parse e0 text = Ok ds -> In d ds -> parsed_named d) ->
  (forall text ds d, env_parse e text = Ok ds -> In d ds -> parsed_named d) ->
  qlc fuel0 wo0 a0 sched0 = Exited 0 out0 f0' -> qlc fuel wo a sched = Exited 0 out f' ->
  forall path0 contents0 d0 frags0 P0 l0 path contents d frags P l,
    is_source (wo_listing wo0) (rc_root_dir rc0) path0 -> f0 (env_locate e0 path0) = Ok contents0 -> env_parse e0 contents0 = Ok [d0] ->
    PropC07.imported_fragments e0 f0 c path0 contents0 frags0 -> is_subscription d0 = false -> doc_root d0 = Some (P0, l0) ->
    is_source (wo_listing wo) (rc_root_dir rc) path -> f (env_locate e path) = Ok contents -> env_parse e contents = Ok [d] ->
    PropC07.imported_fragments e f c path contents frags -> is_subscription d = false -> doc_root d = Some (P, l) ->
    Forall (fun v => valid_gtype (vgtype v) = true) (doc_vars d0) -> NoDup (List.map vd_name (doc_vars d0)) ->
    Forall (fun v => valid_gtype (vgtype v) = true) (doc_vars d) -> NoDup (List.map vd_name (doc_vars d)) ->
    ~ reserved (def_name d0) -> (forall x, leaf_name c js0 x -> ~ declares_name (def_name d0) x) ->
    ~ reserved (def_name d) -> (forall x, leaf_name c js x -> ~ declares_name (def_name d) x) ->
    regular s0 frags0 P0 (fun x => In x l0) -> labels_apart s0 frags0 P0 (fun x => In x l0) ->
    regular s frags P (fun x => In x l) -> tagged_once s frags P (fun x => In x l) ->
    answers_more js0 s0 frags0 js s frags P0 (fun x => In x l0) P (fun x => In x l) ->
    exists text0 M0 G0 node0 rest0 text M G node rest,
      f0' (out_loc e0 path0) = Ok text0 /\ only_reads text0 M0 /\
      (forall x, imports_from M0 (cc_globals_module c) x ->
         module_declares G0 x /\ exists gtext, f0' (env_locate e0 (globals_path c (rc_root_dir rc0))) = Ok gtext /\ only_reads gtext G0) /\
      In (ItConst "graphqlDocument" node0 (def_name d0 :: rest0)) M0 /\ In (ItDefault "graphqlDocument") M0 /\
      f' (out_loc e path) = Ok text /\ only_reads text M /\
      (forall x, imports_from M (cc_globals_module c) x ->
         module_declares G x /\ exists gtext, f' (env_locate e (globals_path c (rc_root_dir rc))) = Ok gtext /\ only_reads gtext G) /\
      In (ItConst "graphqlDocument" node (def_name d :: rest)) M /\ In (ItDefault "graphqlDocument") M /\
      forall amb n v, module_accepts (cc_globals_module c) G M amb n (def_name d) v ->
        exists k, module_accepts (cc_globals_module c) G0 M0 amb k (def_name d0) v.
Proof.
  intros fuel0 fuel wo0 wo a0 a sched0 sched cf0 cf js0 s0 js s out0 out f0' f' rc0 rc c e0 e f0 f Se0 Es0 Se Es Ec Pw0 Pw Lk Al0 Al Dm Pn0 Pn H0 H
    path0 contents0 d0 frags0 P0 l0 path contents d frags P l Sp0 Er0 Ep0 If0 Su0 Dr0 Sp Er Ep If Su Dr Vv0 Nv0 Vv Nv Nr0 Le0 Nr Le R0 Lb0 R Tg Sm.
  pose proof Se as [_ Is Jn _ _ _ _ _ _ _ _]. pose proof (loaded_nameable _ _ _ (in_loaded _ _ Is) Jn) as Nm.
  pose proof Se0 as [_ Is0 Jn0 _ _ _ _ _ _ _ _]. fold rc0 in Jn0. rewrite Ec in Jn0. pose proof (loaded_nameable _ _ _ (in_loaded _ _ Is0) Jn0) as Nm0.
  pose proof (run_module fuel0 wo0 a0 sched0 cf0 js0 s0 out0 f0' Se0 Es0) as Run0. cbv zeta in Run0. fold rc0 in Run0. rewrite Ec in Run0.
  destruct (Run0 Al0 Dm Pn0 H0 path0 Sp0) as (contents0' & d0' & frags2 & ws0 & co0 & Er0' & Ep0' & Ic0 & D0 & Oc0 & Od0 & Rm0). clear Run0.
  assert (contents0' = contents0) by (assert (X : f0 (env_locate e0 path0) = Ok contents0') by exact Er0'; congruence). subst contents0'.
  assert (d0' = d0) by (assert (X : env_parse e0 contents0 = Ok [d0']) by exact Ep0'; congruence). subst d0'.
  destruct (run_module fuel wo a sched cf js s out f' Se Es Al Dm Pn H path Sp) as (contents' & d' & frags3 & ws & co & Er' & Ep' & Ic & D & Oc & Od & Rm).
  assert (contents' = contents) by (assert (X : f (env_locate e path) = Ok contents') by exact Er'; congruence). subst contents'.
  assert (d' = d) by (assert (X : env_parse e contents = Ok [d']) by exact Ep'; congruence). subst d'.
  pose proof (fragments_agree _ _ _ _ _ _ _ Ic0 If0) as Ag0. pose proof (fragments_agree _ _ _ _ _ _ _ Ic If) as Ag.
  destruct (Rm Su Nr) as (M & G & P' & l' & node & rest & Ew & Or & Im & Ico & Ide & Dr' & V & Fv & _ & _ & Back).
  rewrite Dr in Dr'. injection Dr' as <- <-.
  destruct (Rm0 Su0 Nr0) as (M0 & G0 & P1 & l1 & node0 & rest0 & Ew0 & Or0 & Im0 & Ico0 & Ide0 & Dr1 & V0 & Fv0 & _ & Acc0 & _).
  rewrite Dr0 in Dr1. injection Dr1 as <- <-.
  exists (co_contents co0), M0, G0, node0, rest0, (co_contents co), M, G, node, rest. repeat (split; [assumption|]).
  intros amb n v Av.
  destruct (C89_module_partial js0 js fuel0 fuel (file_ctx e0 c s0 path0 frags2) (file_ctx e c s path frags3) c (suborder (env_order e0 path0) [2; 0]) (suborder (env_order e path) [2; 0])
    d0 d ws0 ws co0 co P0 l0 P l (outside_or_input js amb) (outside js0 amb)
    Oc0 Od0 Oc Od Is0 (nameable_proper _ _ Nm0) Pw0 Is (nameable_proper _ _ Nm) Pw D0 Dr0 Su0 D Dr Su) as (m0 & m & W0 & W & _ & _ & A); cbn [file_ctx cx_schema cx_frags] in *; auto.
  - eapply regular_ext; [intros x; symmetry; apply Ag0|exact R0|tauto].
  - eapply labels_apart_ext; [intros x; symmetry; apply Ag0|exact Lb0|tauto].
  - eapply regular_ext; [intros x; symmetry; apply Ag|exact R|tauto].
  - eapply tagged_frags; [intros x; symmetry; apply Ag|exact Tg|tauto].
  - intros x u Lx Lx0 Ou. exact (outside_kept c js0 s0 js amb x u Is0 Jn0 Jn Al0 Al Lk Lx Lx0 Ou).
  - eapply answers_more_frags; [intros x; symmetry; apply Ag0|intros x; symmetry; apply Ag|exact Sm|tauto|tauto].
  - destruct (A n v) as (k & Ak); [apply Back; auto|]. eapply Acc0; eauto.
Qed.
Print Assumptions C89_run_partial.

(** *** From texts to texts *)
Theorem C89_text_partial : forall ck complaint0 complaint jerr0 jerr help0 help version0 version fuel0 fuel wo0 wo its0 its argv0 argv a0 a nc0 nc sched0 sched cf0 cf
    stext0 stext j0 j js0 s0 js s out0 out f0' f',
  let rc0 := merge_config (wo_ncpus wo0) a0 cf0 in
  let rc := merge_config (wo_ncpus wo) a cf in
  let c := cconfig_of rc in
  let e0 := wo_env wo0 in
  let e := wo_env wo in
  let f0 := wo_fs wo0 in
  let f := wo_fs wo in
  on_disk ck complaint0 jerr0 wo0 -> on_disk ck complaint jerr wo ->
  SpecArgs.spelled its0 argv0 -> SpecArgs.consistent its0 -> SpecArgs.complete its0 -> SpecArgs.says its0 a0 nc0 ->
  SpecArgs.spelled its argv -> SpecArgs.consistent its -> SpecArgs.complete its -> SpecArgs.says its a nc ->
  settled wo0 a0 cf0 js0 s0 -> settled wo a cf js s ->
  f0 (env_locate e0 (rc_schema_path rc0)) = Ok stext0 -> text_holds stext0 j0 -> says_schema j0 js0 -> fits js0 ->
  f (env_locate e (rc_schema_path rc)) = Ok stext -> text_holds stext j -> says_schema j js -> fits js ->
  cconfig_of rc0 = c -> plain_wrappers js0 -> plain_wrappers js -> leaves_kept js0 js -> aliases_apart c js0 -> aliases_apart c js -> cc_docnode_module c <> cc_globals_module c ->
  qlc_command help0 version0 fuel0 wo0 argv0 sched0 = Exited 0 out0 f0' -> qlc_command help version fuel wo argv sched = Exited 0 out f' ->
  forall path0 contents0 d0 frags0 P0 l0 path contents d frags P l,
    is_source (wo_listing wo0) (rc_root_dir rc0) path0 -> f0 (env_locate e0 path0) = Ok contents0 -> text_says ck contents0 [d0] ->
    PropC07.imported_fragments e0 f0 c path0 contents0 frags0 -> is_subscription d0 = false -> doc_root d0 = Some (P0, l0) ->
    is_source (wo_listing wo) (rc_root_dir rc) path -> f (env_locate e path) = Ok contents -> text_says ck contents [d] ->
    PropC07.imported_fragments e f c path contents frags -> is_subscription d = false -> doc_root d = Some (P, l) ->
    NoDup (List.map vd_name (doc_vars d0)) -> NoDup (List.map vd_name (doc_vars d)) ->
    ~ reserved (def_name d0) -> (forall x, leaf_name c js0 x -> ~ declares_name (def_name d0) x) ->
    ~ reserved (def_name d) -> (forall x, leaf_name c js x -> ~ declares_name (def_name d) x) ->
    regular s0 frags0 P0 (fun x => In x l0) -> labels_apart s0 frags0 P0 (fun x => In x l0) ->
    regular s frags P (fun x => In x l) -> tagged_once s frags P (fun x => In x l) ->
    answers_more js0 s0 frags0 js s frags P0 (fun x => In x l0) P (fun x => In x l) ->
    exists text0 M0 G0 node0 rest0 text M G node rest,
      f0' (out_loc e0 path0) = Ok text0 /\ only_reads text0 M0 /\
      (forall x, imports_from M0 (cc_globals_module c) x ->
         module_declares G0 x /\ exists gtext, f0' (env_locate e0 (globals_path c (rc_root_dir rc0))) = Ok gtext /\ only_reads gtext G0) /\
      In (ItConst "graphqlDocument" node0 (def_name d0 :: rest0)) M0 /\ In (ItDefault "graphqlDocument") M0 /\
      f' (out_loc e path) = Ok text /\ only_reads text M /\
      (forall x, imports_from M (cc_globals_module c) x ->
         module_declares G x /\ exists gtext, f' (env_locate e (globals_path c (rc_root_dir rc))) = Ok gtext /\ only_reads gtext G) /\
      In (ItConst "graphqlDocument" node (def_name d :: rest)) M /\ In (ItDefault "graphqlDocument") M /\
      forall amb n v, module_accepts (cc_globals_module c) G M amb n (def_name d) v ->
        exists k, module_accepts (cc_globals_module c) G0 M0 amb k (def_name d0) v.
Proof.
  intros ck complaint0 complaint jerr0 jerr help0 help version0 version fuel0 fuel wo0 wo its0 its argv0 argv a0 a nc0 nc sched0 sched cf0 cf
    stext0 stext j0 j js0 s0 js s out0 out f0' f' rc0 rc c e0 e f0 f [Hd0 Hs0] [Hd Hs] Sq0 Cn0 Cm0 Sy0 Sq Cn Cm Sy Se0 Se Es0 Th0 Sj0 Fi0 Es Th Sj Fi Ec Pw0 Pw Lk Al0 Al Dm H0 H
    path0 contents0 d0 frags0 P0 l0 path contents d frags P l Sp0 Er0 Ts0 If0 Su0 Dr0 Sp Er Ts If Su Dr Nv0 Nv.
  assert (Pa0 : parse_args argv0 = URun a0 nc0) by (apply PropC65.C65_exact; eauto).
  assert (Pa : parse_args argv = URun a nc) by (apply PropC65.C65_exact; eauto).
  assert (Hq0 : qlc fuel0 wo0 a0 sched0 = Exited 0 out0 f0') by (unfold qlc_command in H0; rewrite Pa0 in H0; exact H0).
  assert (Hq : qlc fuel wo a sched = Exited 0 out f') by (unfold qlc_command in H; rewrite Pa in H; exact H).
  assert (Sc0 : wo_schema wo0 (rc_schema_path rc0) = SRDecoded js0) by (rewrite (Hs0 _ _ Es0); apply PropC67.C67_schema; eauto).
  assert (Sc : wo_schema wo (rc_schema_path rc) = SRDecoded js) by (rewrite (Hs _ _ Es); apply PropC67.C67_schema; eauto).
  assert (Pn0 : forall text ds d, env_parse e0 text = Ok ds -> In d ds -> parsed_named d).
  { intros text ds d1 E I. rewrite Hd0 in E. destruct (parse_query ck text) as [ds'|] eqn:Ep; [|discriminate]. injection E as ->. eapply C69_named; eauto. }
  assert (Pn : forall text ds d, env_parse e text = Ok ds -> In d ds -> parsed_named d).
  { intros text ds d1 E I. rewrite Hd in E. destruct (parse_query ck text) as [ds'|] eqn:Ep; [|discriminate]. injection E as ->. eapply C69_named; eauto. }
  assert (Ep0 : env_parse e0 contents0 = Ok [d0]).
  { rewrite Hd0. pose proof (proj2 (C69_text _ _ _) Ts0) as T. rewrite T. reflexivity. }
  assert (Ep : env_parse e contents = Ok [d]).
  { rewrite Hd. pose proof (proj2 (C69_text _ _ _) Ts) as T. rewrite T. reflexivity. }
  assert (Vv0 : Forall (fun v => valid_gtype (vgtype v) = true) (doc_vars d0)) by (eapply text_vars_valid; [exact Ts0|left; reflexivity]).
  assert (Vv : Forall (fun v => valid_gtype (vgtype v) = true) (doc_vars d)) by (eapply text_vars_valid; [exact Ts|left; reflexivity]).
  exact (C89_run_partial fuel0 fuel wo0 wo a0 a sched0 sched cf0 cf js0 s0 js s out0 out f0' f' Se0 Sc0 Se Sc Ec Pw0 Pw Lk Al0 Al Dm Pn0 Pn Hq0 Hq
    path0 contents0 d0 frags0 P0 l0 path contents d frags P l Sp0 Er0 Ep0 If0 Su0 Dr0 Sp Er Ep If Su Dr Vv0 Nv0 Vv Nv).
Qed.
Print Assumptions C89_text_partial.


(** ** A check for changes of a schema *)
Fixpoint strictb (g g0 : gtype) : bool :=
  match g, g0 with
  | GNamed _, GNamed _ => true
  | GList a, GList b => strictb a b
  | GNonNull a, GNonNull b => strictb a b
  | GNonNull a, b => strictb a b
  | _, _ => false
  end.
Lemma strictb_ok g : forall g0, strictb g g0 = true -> stricter g g0.
Proof.
  induction g as [n|g IH|g IH]; intros [n0|h|h]; cbn [strictb]; intros E; try discriminate E; try (constructor; auto; fail).
Qed.
Definition promisesb (js0 : jschema) (s0 : schema) (js : jschema) (s : schema) : bool :=
  forallb (fun j0 =>
    let n := jt_name j0 in
    match lastb jt_name n js with
    | Some j =>
        (if complex_kind j0 then forallb (fun f0 =>
           match ref_of (jf_type f0), find_decl js n (jf_name f0) with
           | Some (k0, g0), Some (k, g) => String.eqb k k0 && strictb g g0 && String.eqb (gbase g) (gbase g0)
           | _, _ => false
           end) (fields_of j0) else true) &&
        (if String.eqb (jt_kind j0) "SCALAR" || String.eqb (jt_kind j0) "ENUM" then String.eqb (jt_kind j) (jt_kind j0) else true) &&
        match jt_enum_values j0, jt_enum_values j with Some vs0, Some vs => forallb (fun v => mems v vs0) vs | _, _ => true end &&
        forallb (fun T => mems T (possibles s0 n)) (possibles s n)
    | None => negb (String.eqb (jt_kind j0) "SCALAR" || String.eqb (jt_kind j0) "ENUM") && forallb (fun T => mems T (possibles s0 n)) (possibles s n)
    end) js0 &&
  forallb (fun x : string * stype => forallb (fun T => mems T (possibles s (fst x)) || forallb (fun y : string * stype => negb (mems T (possibles s (fst y)))) s) (possibles s0 (fst x))) s0.
Lemma possible_key s Q T : possible s Q T -> exists t, In (Q, t) s.
Proof. intros (t & G & _). apply aget_In in G. eauto. Qed.
Lemma promisesb_ok js0 s0 js s : introspection js0 s0 -> promisesb js0 s0 js s = true -> promises_more js0 s0 js s.
Proof.
  intros I0 H. unfold promisesb in H. apply andb_prop in H. destruct H as [H H2]. rewrite forallb_forall in H, H2.
  constructor; [constructor|..].
  - intros n j0 L K. destruct (last_in _ _ _ _ L) as [J En]. specialize (H j0 J). cbv zeta in H. rewrite En in H.
    assert (Kb : String.eqb (jt_kind j0) "SCALAR" || String.eqb (jt_kind j0) "ENUM" = true) by (destruct K as [-> | ->]; reflexivity).
    rewrite Kb in H. destruct (lastb jt_name n js) as [j|] eqn:El; [|discriminate H]. apply lastb_ok in El. exists j. split; auto.
    apply andb_prop in H. destruct H as [H _]. apply andb_prop in H. destruct H as [H _]. apply andb_prop in H. destruct H as [_ H]. apply String.eqb_eq. exact H.
  - intros n j0 j vs0 vs L K E0 Lj E. destruct (last_in _ _ _ _ L) as [J En]. specialize (H j0 J). cbv zeta in H. rewrite En in H.
    apply lastb_ok in Lj. rewrite Lj in H. apply andb_prop in H. destruct H as [H _]. apply andb_prop in H. destruct H as [_ H]. rewrite E0, E in H.
    rewrite forallb_forall in H. intros v Jv. apply mems_ok. auto.
  - intros P n kind g j D Lj. pose proof D as (j0 & fs & f0 & L & K & Ef & Lf & Et). destruct (last_in _ _ _ _ L) as [J En]. specialize (H j0 J). cbv zeta in H. rewrite En in H.
    apply lastb_ok in Lj. rewrite Lj in H. do 3 (apply andb_prop in H; destruct H as [H _]).
    assert (Kb : complex_kind j0 = true) by (unfold complex_kind; destruct K as [-> | ->]; reflexivity). rewrite Kb in H. rewrite forallb_forall in H.
    destruct (last_in _ _ _ _ Lf) as [Jf Enf]. assert (Jf' : In f0 (fields_of j0)) by (unfold fields_of; rewrite Ef; exact Jf). specialize (H f0 Jf').
    destruct (in_refs _ _ I0 _ _ _ _ _ L K Ef Lf) as (kind1 & g1 & Et1 & Ko & _). rewrite Et in Et1. apply json_of_inj in Et1. destruct Et1 as [<- <-].
    rewrite Et, (json_ref _ _ Ko), Enf in H. destruct (find_decl js P n) as [[k1 g1]|] eqn:Fd; [|discriminate H].
    apply andb_prop in H. destruct H as [H Hb]. apply andb_prop in H. destruct H as [Hk Hs]. apply String.eqb_eq in Hb, Hk. subst k1.
    exists g1. split; [apply find_declared; exact Fd|]. split; auto. apply strictb_ok. exact Hs.
  - intros P T j0 L Po. destruct (last_in _ _ _ _ L) as [J En]. specialize (H j0 J). cbv zeta in H. rewrite En in H. apply possibles_ok. apply mems_ok.
    assert (X : forallb (fun T => mems T (possibles s0 P)) (possibles s P) = true) by (destruct (lastb jt_name P js); apply andb_prop in H; apply H).
    rewrite forallb_forall in X. apply X. apply possibles_ok. exact Po.
  - intros P Q T Po Pq. destruct (possible_key _ _ _ Po) as (t & Jt). specialize (H2 _ Jt). cbn [fst] in H2. rewrite forallb_forall in H2.
    specialize (H2 T ltac:(apply possibles_ok; exact Po)). apply orb_prop in H2. destruct H2 as [H2|H2]; [apply possibles_ok; apply mems_ok; exact H2|].
    exfalso. destruct (possible_key _ _ _ Pq) as (t' & Jt'). rewrite forallb_forall in H2. specialize (H2 _ Jt'). cbn [fst] in H2.
    apply negb_true_iff in H2. assert (X : mems T (possibles s Q) = true) by (apply mems_ok; apply possibles_ok; exact Pq). congruence.
Qed.

(** ** Non-vacuity: the files of C72, and before: with less selected, fields nullable that are not, one value more and one
    type more *)
Definition past_json : jschema :=
  [object_type "Query" [plain_field "pet" (named_type "INTERFACE" "Pet"); plain_field "pets" (SelWorlds.list_of (named_type "INTERFACE" "Pet"))];
   abstract_type "INTERFACE" "Pet" ["Dog"; "Cat"; "Eel"; "Fox"] (Some [plain_field "name" sstring]);
   object_type "Fox" [plain_field "name" sstring];
   object_type "Dog" [plain_field "name" sstring; plain_field "size" (Worlds.nonnull (named_type "ENUM" "Size")); plain_field "owner" (named_type "OBJECT" "User")];
   object_type "Cat" [plain_field "name" (Worlds.nonnull sstring); plain_field "size" (named_type "ENUM" "Size"); plain_field "owner" (Worlds.nonnull (named_type "OBJECT" "User"))];
   object_type "Eel" [plain_field "name" sstring; plain_field "owner" (Worlds.nonnull (named_type "OBJECT" "User"))];
   object_type "User" [plain_field "name" (Worlds.nonnull sstring); plain_field "mood" (named_type "ENUM" "Mood"); plain_field "pet" (named_type "INTERFACE" "Pet")];
   enum_type "Mood" ["GLAD"; "SAD"; "CALM"]; enum_type "Size" ["BIG"; "SMALL"]; scalar_type "String"].
Definition past : schema := Eval vm_compute in match load_schema past_json with Ok s => s | Err _ => [] end.
Lemma past_intro : introspection past_json past.
Proof. apply (introb_ok past_json past true); vm_compute; reflexivity. Qed.
Lemma past_wrappers : plain_wrappers past_json.
Proof. apply (wrapsb_ok past_json past true); [vm_compute; reflexivity|reflexivity]. Qed.
Lemma past_promises : promises_more past_json past farm_json farm.
Proof. apply promisesb_ok; [exact past_intro|vm_compute; reflexivity]. Qed.
Lemma past_types_plain P T : possible past P T -> no_underscore T.
Proof.
  intros Po. apply possibles_ok in Po. unfold possibles in Po. destruct (get_type past P) as [t|] eqn:G; [|destruct Po].
  apply aget_In in G. unfold no_underscore. revert Po. vm_compute in G.
  repeat (destruct G as [G|G]; [injection G as <- <-; cbn; intuition (subst; cbn in *; intuition discriminate)|]). destruct G.
Qed.
Lemma past_typename P f : field_of past P "__typename" f -> ~ composite past (ft_name (sf_type f)).
Proof.
  intros (t & G & F) C. apply compositeb_ok in C. apply aget_In in G. vm_compute in G.
  repeat (destruct G as [G|G]; [injection G as <- <-; vm_compute in F; try contradiction; injection F as <-; discriminate C|]). destruct G.
Qed.
Definition past_text : string := Eval vm_compute in PropC72.show_json (w_schema past_json).
Lemma past_text_read : schema_of_text "" past_text = SRDecoded past_json.
Proof. vm_compute. reflexivity. Qed.
Definition past_files : fs := ImportWorlds.files [("./g.graphql", scant_query); ("./n.graphql", scant_fragment_text); ("./schema.json", past_text)].
Definition past_world : world :=
  {| wo_env := text_env; wo_listing := PropC35.pair_listing; wo_ncpus := 4; wo_config := fun _ => CRNotFound "not found";
     wo_schema := fun p => match past_files p with Ok t => schema_of_text "" t | Err m => SRIoError m end; wo_fs := past_files |}.
Lemma past_step file contents n l t : imports_at plain_config file contents n l t ->
  (file = "./g.graphql" /\ contents = scant_query) \/ (file = "./n.graphql" /\ contents = scant_fragment_text) -> t = "./n.graphql".
Proof.
  intros H K. pose proof (PropC35.imports_target _ _ _ _ _ _ H) as (L & E). destruct H as (q & _ & (rest & Eq & _) & _).
  destruct K as [[-> ->]|[-> ->]].
  - destruct n as [|[|[|n]]]; vm_compute in L; try discriminate; injection L as <-; [vm_compute in E; congruence|discriminate].
  - destruct n as [|[|n]]; vm_compute in L; try discriminate; injection L as <-. discriminate.
Qed.
Lemma past_reach file contents t o : (file = "./g.graphql" /\ contents = scant_query) \/ (file = "./n.graphql" /\ contents = scant_fragment_text) ->
  reach text_env past_files plain_config file contents t o -> t = "./n.graphql" /\ o = scant_fragment_text.
Proof.
  intros K R. induction R as [n l t o A Eo|mid mc n l t o R [-> ->] A Eo].
  - apply past_step in A; auto. subst. split; auto. unfold past_files, ImportWorlds.files in Eo. cbn in Eo. congruence.
  - apply past_step in A; auto. subst. split; auto. unfold past_files, ImportWorlds.files in Eo. cbn in Eo. congruence.
Qed.
Lemma past_read path contents : is_source PropC35.pair_listing "." path -> past_files (env_locate text_env path) = Ok contents ->
  (path = "./g.graphql" /\ contents = scant_query) \/ (path = "./n.graphql" /\ contents = scant_fragment_text).
Proof. intros [-> | ->]%PropC35.pair_source E; [left|right]; (split; [reflexivity|]); vm_compute in E |- *; congruence. Qed.
Lemma past_separate : separate text_env PropC35.pair_listing plain_config "." past_files.
Proof.
  split.
  - intros x y l Hx Hy R. assert (Ey : out_loc text_env y = "./g.graphql.d.ts" \/ out_loc text_env y = "./n.graphql.d.ts").
    { apply PropC35.pair_source in Hy. destruct Hy as [-> | ->]; [left|right]; reflexivity. }
    assert (El : l = "./g.graphql" \/ l = "./n.graphql").
    { destruct R as [|contents file' contents' n l t E I A]; [apply PropC35.pair_source; auto|]. right.
      pose proof (past_read _ _ Hx E) as K. destruct I as [[-> ->]|R].
      - eapply (past_step x contents); eauto.
      - destruct (past_reach _ _ _ _ K R) as [-> ->]. eapply (past_step _ _ _ _ _ A). auto. }
    destruct El as [-> | ->], Ey as [-> | ->]; discriminate.
  - intros x y Hx Hy. apply PropC35.pair_source in Hx. apply PropC35.pair_source in Hy. destruct Hx as [-> | ->], Hy as [-> | ->]; auto; discriminate.
Qed.
Lemma past_inputs : inputs_consistent past.
Proof.
  intros n t nm fs G E. apply aget_In in G. vm_compute in G. repeat (destruct G as [G|G]; [injection G as <- <-; discriminate E|]). destruct G.
Qed.
Lemma past_settled : LinkFacts.settled past_world (args_threads 1) config_default past_json past.
Proof.
  destruct PropC35.C35_nonvacuous as (_ & _ & _ & N & _ & _ & _ & C & _).
  constructor; auto.
  - exact past_intro.
  - apply json_nameableb_ok. vm_compute. reflexivity.
  - exact past_separate.
  - intros p Sp. apply PropC35.pair_source in Sp. destruct Sp as [-> | ->]; discriminate.
  - intros p. exact plain_ok.
  - exact past_inputs.
  - intros a b x y Pe Ea Eb. apply path_eqb_same in Pe. change (past_files a = Ok x) in Ea. change (past_files b = Ok y) in Eb. unfold past_files, ImportWorlds.files in Ea, Eb. cbn [aget] in Ea, Eb.
    unfold eqb, EqB_string in Ea, Eb.
    destruct (String.eqb_spec a "./g.graphql") as [->|]; [|destruct (String.eqb_spec a "./n.graphql") as [->|]; [|destruct (String.eqb_spec a "./schema.json") as [->|]; [|discriminate]]];
    (destruct (String.eqb_spec b "./g.graphql") as [->|]; [|destruct (String.eqb_spec b "./n.graphql") as [->|]; [|destruct (String.eqb_spec b "./schema.json") as [->|]; [|discriminate]]]); congruence || discriminate.
  - intros path contents t o Sp E R. pose proof (past_read _ _ Sp E) as K. destruct (past_reach _ _ _ _ K R) as [-> _].
    apply PropC35.pair_is_source. auto.
Qed.
Lemma past_fragments : PropC07.imported_fragments text_env past_files plain_config "./g.graphql" scant_query [("PetName", scant_fragment)].
Proof.
  intros n fd. split.
  - intros E. cbn [aget] in E. destruct (eqb n "PetName") eqn:En; [|discriminate]. injection E as <-. apply String.eqb_eq in En. subst n.
    exists "./n.graphql", scant_fragment_text. split; [|split; [vm_compute; reflexivity|reflexivity]].
    eapply (reach_one _ _ _ _ _ 0 (import_mark +++ "n.graphql" +++ String quote "")); [|vm_compute; reflexivity].
    exists "n.graphql". split; [split; [vm_compute; reflexivity|intros k l' Lt; lia]|]. split.
    + exists "". split; [reflexivity|]. intros X. inversion X.
    + apply (resolves_root plain_config _ "n.graphql").
      * intros r (p & X & _). discriminate.
      * intros r. discriminate.
  - intros (t & o & R & Hf & <-). destruct (past_reach _ _ _ _ (or_introl (conj eq_refl eq_refl)) R) as [-> ->].
    vm_compute in Hf. injection Hf as <-. reflexivity.
Qed.

Lemma past_regular : regular past [("PetName", scant_fragment)] "Query" (fun x => In x scant_sels).
Proof. apply (regularb_ok past _ 12 "Query" scant_sels); [vm_compute; reflexivity|tauto]. Qed.
Lemma past_labels : labels_apart past [("PetName", scant_fragment)] "Query" (fun x => In x scant_sels).
Proof.
  apply plain_apart. apply (clean_labels past [("PetName", scant_fragment)] past_types_plain); [|exact past_typename|apply regular_nested; exact past_regular|].
  - intros n fd E. cbn [aget] in E. destruct (eqb n "PetName"); [|discriminate]. injection E as <-.
    repeat (constructor; try (right; unfold no_underscore; cbn; intuition discriminate)).
  - apply Forall_forall. unfold scant_sels.
    repeat (constructor; try (left; reflexivity); try (right; unfold no_underscore; cbn; intuition discriminate)).
Qed.
Lemma past_leaves x : leaf_name plain_config past_json x -> ~ declares_name "Was" x.
Proof.
  intros L D.
  assert (Q : exists r, x = "Was" +++ r).
  { destruct D as [->|[->|(r & ->)]]; [exists ""|exists "Variables"|exists ("_" +++ r)]; reflexivity. }
  destruct Q as (r & ->). destruct L as [L|[(n & Si & _ & j & L & K)|(j & L & K)]].
  - cbn in L. intuition discriminate.
  - apply last_in in L. destruct L as [J En]. cbn in J. repeat (destruct J as [<-|J]; [try discriminate K|]); try destruct J.
    cbn in En. subst n. inversion Si as [| | | | |? Ns]. apply Ns. cbn. auto.
  - apply last_in in L. destruct L as [J En]. cbn in J. repeat (destruct J as [<-|J]; [try discriminate K; discriminate En|]). destruct J.
Qed.
Lemma past_more : answers_more past_json past [("PetName", scant_fragment)] farm_json farm [("PetName", disk_fragment)] "Query" (fun x => In x scant_sels) "Query" (fun x => In x disk_sels).
Proof.
  destruct scant_kept as [A B]. assert (L : exists j, last_named jt_name "Query" past_json j) by (eexists; apply lastb_ok; vm_compute; reflexivity).
  destruct L as (j & L). exact (C89_changed _ _ _ _ _ _ _ _ _ _ past_intro farm_intro past_promises B A L disk_tagged).
Qed.
Example C89_nonvacuous : exists out0 f0' out f' text0 M0 G0 text M G,
  qlc_command "" "" 30 past_world ["--num-threads"; "1"] (repeat 0 90) = Exited 0 out0 f0' /\
  qlc_command "" "" 30 disk_world ["--num-threads"; "1"] (repeat 0 90) = Exited 0 out f' /\
  f0' "./g.graphql.d.ts" = Ok text0 /\ only_reads text0 M0 /\ f' "./g.graphql.d.ts" = Ok text /\ only_reads text M /\ text0 <> text /\
  (exists n, module_accepts "graphql-globals" G M disk_amb n "Q" good_response) /\
  exists n, module_accepts "graphql-globals" G0 M0 disk_amb n "Was" good_response.
Proof.
  assert (Pa : parse_args ["--num-threads"; "1"] = URun (args_threads 1) false) by reflexivity.
  apply PropC65.C65_exact in Pa. destruct Pa as (its & Sp & Cn & Cm & Sy).
  assert (X : exists j, text_holds farm_text j /\ says_schema j farm_json /\ fits farm_json) by (apply (PropC67.C67_schema ""); exact farm_text_read).
  destruct X as (j & Th & Sj & Fi).
  assert (X : exists j, text_holds past_text j /\ says_schema j past_json /\ fits past_json) by (apply (PropC67.C67_schema ""); exact past_text_read).
  destruct X as (j0 & Th0 & Sj0 & Fi0).
  assert (H : exists out f', qlc_command "" "" 30 disk_world ["--num-threads"; "1"] (repeat 0 90) = Exited 0 out f' /\
    exists text is, f' "./g.graphql.d.ts" = Ok text /\ only_reads text is /\ In (ItImport ["Mood"; "Size"] "graphql-globals") is).
  { do 2 eexists. split; [vm_compute; reflexivity|]. do 2 eexists. split; [vm_compute; reflexivity|].
    split; [unfold only_reads; apply (reads_once 2000); vm_compute; reflexivity|]. right; left; reflexivity. }
  destruct H as (out & f' & H & text0 & is & Et0 & R0 & I0).
  assert (H0 : exists out0 f0', qlc_command "" "" 30 past_world ["--num-threads"; "1"] (repeat 0 90) = Exited 0 out0 f0').
  { do 2 eexists. vm_compute. reflexivity. }
  destruct H0 as (out0 & f0' & H0).
  assert (Ne : forall t t1, qlc_command "" "" 30 past_world ["--num-threads"; "1"] (repeat 0 90) = Exited 0 out0 f0' -> f0' "./g.graphql.d.ts" = Ok t ->
    qlc_command "" "" 30 disk_world ["--num-threads"; "1"] (repeat 0 90) = Exited 0 out f' -> f' "./g.graphql.d.ts" = Ok t1 -> t <> t1).
  { clear. intros t t1 H0 E0 H1 E1. vm_compute in H0, H1. injection H0 as <- <-. injection H1 as <- <-. vm_compute in E0, E1. injection E0 as <-. injection E1 as <-. discriminate. }
  assert (Dk : on_disk lenient (fun _ => "syntax error") "" disk_world).
  { split; [reflexivity|]. intros p t E. cbn [disk_world wo_schema]. cbn [disk_world wo_fs wo_env] in E. change (disk_files p = Ok t) in E. rewrite E. reflexivity. }
  assert (Dk0 : on_disk lenient (fun _ => "syntax error") "" past_world).
  { split; [reflexivity|]. intros p t E. cbn [past_world wo_schema]. cbn [past_world wo_fs wo_env] in E. change (past_files p = Ok t) in E. rewrite E. reflexivity. }
  assert (Al : aliases_apart (cconfig_of (merge_config (wo_ncpus disk_world) (args_threads 1) config_default)) farm_json).
  { intros n x _ W. cbn in W. subst x. split; [cbn; intuition discriminate|]. intros y L. apply last_in in L. destruct L as [J En]. cbn in J.
    repeat (destruct J as [<-|J]; [discriminate En|]). destruct J. }
  assert (Al0 : aliases_apart (cconfig_of (merge_config (wo_ncpus disk_world) (args_threads 1) config_default)) past_json).
  { intros n x _ W. cbn in W. subst x. split; [cbn; intuition discriminate|]. intros y L. apply last_in in L. destruct L as [J En]. cbn in J.
    repeat (destruct J as [<-|J]; [discriminate En|]). destruct J. }
  assert (Rs : response farm_json farm [("PetName", disk_fragment)] (active_of always) no_custom "Query" disk_sels good_response).
  { exists 8, "Query". split; [apply possibles_ok; left; reflexivity|]. apply respb_ok. vm_compute. reflexivity. }
  destruct (C72_text_partial lenient (fun _ => "syntax error") "" "" "" 30 disk_world its ["--num-threads"; "1"] (args_threads 1) false (repeat 0 90)
    config_default farm_text j farm_json farm out f' Dk Sp Cn Cm Sy disk_settled eq_refl Th Sj Fi farm_wrappers Al)
    with (path := "./g.graphql") (contents := barn_query) (d := disk_doc) (frags := [("PetName", disk_fragment)]) (P := "Query") (l := disk_sels)
         (active := active_of always) (custom := no_custom) (amb := disk_amb) as (text' & M' & G' & _ & _ & Et' & R' & Im' & _ & _ & A').
  - discriminate.
  - exact H.
  - apply PropC35.pair_is_source. auto.
  - reflexivity.
  - apply C69_text. vm_compute. reflexivity.
  - exact disk_fragments.
  - reflexivity.
  - reflexivity.
  - apply reservedb_ok. reflexivity.
  - constructor.
  - exact farm_leaves.
  - exact disk_surroundings.
  - exact disk_regular.
  - exact disk_labels.
  - intros x _. apply all_unconditional.
  - intros n fd _. apply Forall_forall. intros x _. apply all_unconditional.
  - destruct (C89_text_partial lenient (fun _ => "syntax error") (fun _ => "syntax error") "" "" "" "" "" "" 30 30 past_world disk_world its its ["--num-threads"; "1"] ["--num-threads"; "1"]
      (args_threads 1) (args_threads 1) false false (repeat 0 90) (repeat 0 90) config_default config_default past_text farm_text j0 j past_json past farm_json farm out0 out f0' f'
      Dk0 Dk Sp Cn Cm Sy Sp Cn Cm Sy past_settled disk_settled eq_refl Th0 Sj0 Fi0 eq_refl Th Sj Fi eq_refl past_wrappers farm_wrappers (pm_leaves _ _ _ _ past_promises) Al0 Al)
      with (path0 := "./g.graphql") (contents0 := scant_query) (d0 := scant_doc) (frags0 := [("PetName", scant_fragment)]) (P0 := "Query") (l0 := scant_sels)
           (path := "./g.graphql") (contents := barn_query) (d := disk_doc) (frags := [("PetName", disk_fragment)]) (P := "Query") (l := disk_sels)
      as (text1 & M1 & G1 & node1 & rest1 & text & M & G & node & rest & Et1 & R1 & _ & _ & _ & Et & R & Im & Ico & _ & A).
    + discriminate.
    + exact H0.
    + exact H.
    + apply PropC35.pair_is_source. auto.
    + reflexivity.
    + apply C69_text. vm_compute. reflexivity.
    + exact past_fragments.
    + reflexivity.
    + reflexivity.
    + apply PropC35.pair_is_source. auto.
    + reflexivity.
    + apply C69_text. vm_compute. reflexivity.
    + exact disk_fragments.
    + reflexivity.
    + reflexivity.
    + constructor.
    + constructor.
    + apply reservedb_ok. reflexivity.
    + exact past_leaves.
    + apply reservedb_ok. reflexivity.
    + exact farm_leaves.
    + exact past_regular.
    + exact past_labels.
    + exact disk_regular.
    + exact disk_tagged.
    + exact past_more.
    + exists out0, f0', out, f', text1, M1, G1, text, M, G. split; [exact H0|]. split; [exact H|]. split; [exact Et1|]. split; [exact R1|]. split; [exact Et|]. split; [exact R|].
      split; [exact (Ne _ _ H0 Et1 H Et)|].
      assert (E1 : text = text0) by (assert (X : f' "./g.graphql.d.ts" = Ok text) by exact Et; congruence).
      assert (E2 : text' = text0) by (assert (X : f' "./g.graphql.d.ts" = Ok text') by exact Et'; congruence). subst text text'.
      assert (E1 : M = is) by (apply R0; apply R; reflexivity). assert (E2 : M' = is) by (apply R0; apply R'; reflexivity). subst M M'.
      assert (Ii : imports_from is "graphql-globals" "Mood") by (exists ["Mood"; "Size"]; split; [exact I0|left; reflexivity]).
      destruct (Im "Mood" Ii) as (_ & gt & Eg & Rg). destruct (Im' "Mood" Ii) as (_ & gt' & Eg' & Rg').
      assert (E1 : gt' = gt).
      { match type of Eg with f' ?p = _ => assert (Y : f' p = Ok gt') by exact Eg' end. congruence. }
      subst gt'. assert (E1 : G' = G) by (apply Rg; apply Rg'; reflexivity). subst G'.
      pose proof (A' good_response Rs) as Acc. split; [exact Acc|]. destruct Acc as (n & An). exact (A disk_amb n good_response An).
Qed.

(** ** Refutations *)
(** A list of non-null lists in place of a list of lists: the type lost a dimension (C01), and accepts what was not accepted *)
Definition grid_json (cell : jtype) : jschema :=
  [object_type "Query" [plain_field "grid" (SelWorlds.list_of cell)]; scalar_type "String"].
Definition loose_json : jschema := grid_json (SelWorlds.list_of sstring).
Definition tight_json : jschema := grid_json (Worlds.nonnull (SelWorlds.list_of sstring)).
Definition loose : schema := Eval vm_compute in match load_schema loose_json with Ok s => s | Err _ => [] end.
Definition tight : schema := Eval vm_compute in match load_schema tight_json with Ok s => s | Err _ => [] end.
Definition grid_cx (s : schema) : ctx := {| cx_schema := s; cx_deprecations := false; cx_frags := []; cx_order := plain_order |}.
Definition grid_sels : list selection := [leaf 2 "grid"].
Definition grid_module (e : texpr) : tsfile :=
  {| tf_node := "QueryDocumentNode"; tf_node_from := cc_docnode_module plain_config; tf_globals := [];
     tf_globals_from := cc_globals_module plain_config; tf_decls := [DObj "Q" [prop "grid" e]]; tf_args := ["Q"; "never"] |}.
Definition loose_module : tsfile := Eval vm_compute in grid_module (ptd_expr [MNullableListOfNullable] MNullableListOfNullable (XName "string")).
Definition tight_module : tsfile := Eval vm_compute in grid_module (ptd_expr [MNullableList] MNullable (XName "string")).
Theorem C89_refuted : exists ws0 co0 ws co, let v := VObj [("grid", VList [VStr "a"])] in
  introspection loose_json loose /\ introspection tight_json tight /\ promises_more loose_json loose tight_json tight /\
  document_file 20 (grid_cx loose) plain_config plain_order (query grid_sels) ws0 co0 /\ reads_as co0 loose_module /\
  document_file 20 (grid_cx tight) plain_config plain_order (query grid_sels) ws co /\ reads_as co tight_module /\
  valid_sels loose [] "Query" grid_sels /\ valid_sels tight [] "Query" grid_sels /\
  (exists n, accepts (tf_decls tight_module) farm_base n "Q" v) /\ forall n, ~ accepts (tf_decls loose_module) farm_base n "Q" v.
Proof.
  assert (I0 : introspection loose_json loose) by (apply (introb_ok loose_json loose false); vm_compute; reflexivity).
  assert (I1 : introspection tight_json tight) by (apply (introb_ok tight_json tight false); vm_compute; reflexivity).
  do 4 eexists. cbv zeta. split; [exact I0|]. split; [exact I1|]. split; [apply promisesb_ok; [exact I0|vm_compute; reflexivity]|].
  split; [eexists; split; vm_compute; reflexivity|]. split; [apply (reads_by 2000); vm_compute; reflexivity|].
  split; [eexists; split; vm_compute; reflexivity|]. split; [apply (reads_by 2000); vm_compute; reflexivity|].
  split; [constructor; [|constructor]; eapply valid_leaf; [eexists; split; vm_compute; reflexivity|intros C; apply compositeb_ok in C; discriminate C]|].
  split; [constructor; [|constructor]; eapply valid_leaf; [eexists; split; vm_compute; reflexivity|intros C; apply compositeb_ok in C; discriminate C]|].
  split.
  - exists 3. cbn [accepts]. split; [|left; eexists; split; [left; reflexivity|reflexivity]]. intros d J _. cbn in J. destruct J as [<-|J]; [|destruct J]. cbn [decl_values].
    eexists. split; [reflexivity|]. constructor; [|constructor]. cbn. left. exists [VStr "a"]. split; [reflexivity|]. constructor; [|constructor].
    left. split; [intros d J E; cbn in J; destruct J as [<-|J]; [discriminate E|destruct J]|]. right. cbn. eauto.
  - intros n A. into_decl A (DObj "Q" (match tf_decls loose_module with DObj _ l :: _ => l | _ => [] end)).
    destruct A as (kvs & Ev & F). injection Ev as <-. inversion F as [|? ? A' _]; subst. cbn in A'.
    destruct A' as [(l & El & F1)|A']; [|discriminate A']. injection El as <-. inversion F1 as [|? ? A1 _]; subst.
    destruct A1 as [[(l & El & _)|A1]|A1]; [discriminate El|discriminate A1|discriminate A1].
Qed.
Print Assumptions C89_refuted.

(** Not every change to a schema will do: with one object type more for an interface, what is accepted after was not before *)
Definition foxy : schema := Eval vm_compute in match load_schema GrowWorlds.foxy_json with Ok s => s | Err _ => [] end.
Definition fox_sels : list selection := [node 2 "pet" [leaf 3 "__typename"]].
Definition fox_module (ts : list string) : tsfile :=
  {| tf_node := "QueryDocumentNode"; tf_node_from := cc_docnode_module plain_config; tf_globals := [];
     tf_globals_from := cc_globals_module plain_config;
     tf_decls := [DObj "Q_pet" [prop "__typename" (lit_union ts)]; DObj "Q" [prop "pet" (XName "Q_pet")]]; tf_args := ["Q"; "never"] |}.
Theorem C89_needs_fewer : exists ws0 co0 ws co, let v := VObj [("pet", VObj [("__typename", VStr "Fox")])] in
  document_file 20 (farm_cx []) plain_config plain_order (query fox_sels) ws0 co0 /\ reads_as co0 (fox_module ["Cat"; "Dog"; "Eel"]) /\
  document_file 20 (grid_cx foxy) plain_config plain_order (query fox_sels) ws co /\ reads_as co (fox_module ["Cat"; "Dog"; "Eel"; "Fox"]) /\
  (exists n, accepts (tf_decls (fox_module ["Cat"; "Dog"; "Eel"; "Fox"])) farm_base n "Q" v) /\ rejected (fox_module ["Cat"; "Dog"; "Eel"]) "Q" v.
Proof.
  do 4 eexists. cbv zeta.
  split; [eexists; split; vm_compute; reflexivity|]. split; [apply (reads_by 2000); vm_compute; reflexivity|].
  split; [eexists; split; vm_compute; reflexivity|]. split; [apply (reads_by 2000); vm_compute; reflexivity|]. split.
  - exists 3. cbn [accepts]. split; [|left; eexists; split; [right; left; reflexivity|reflexivity]]. intros d J E. cbn in J. destruct J as [<-|[<-|[]]]; try discriminate E. cbn [decl_values].
    eexists. split; [reflexivity|]. constructor; [|constructor]. cbn. split; [|left; eexists; split; [left; reflexivity|reflexivity]].
    intros d J E1. cbn in J. destruct J as [<-|[<-|[]]]; try discriminate E1. eexists. split; [reflexivity|]. constructor; [|constructor]. cbn. auto.
  - intros base n A. into_decl A (DObj "Q" [prop "pet" (XName "Q_pet")]). destruct A as (kvs & Ev & F). injection Ev as <-. inversion F as [|? ? A' _]; subst. cbn in A'.
    into_decl A' (DObj "Q_pet" [prop "__typename" (lit_union ["Cat"; "Dog"; "Eel"])]). destruct A' as (kvs & Ev & F1). injection Ev as <-. inversion F1 as [|? ? A1 _]; subst. cbn in A1.
    intuition discriminate.
Qed.
Print Assumptions C89_needs_fewer.
