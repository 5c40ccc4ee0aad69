(** C74: the exported result type allows exactly the responses, from texts to texts. *)
From Verif Require Import SpecExact SpecWide ExactFacts WideFacts LinkExact LinkData LinkExt IntroCheck ShareWorlds GlobalRead JsonCheck WrittenEq Package RespFacts RequestFacts RunFacts PropC56 PropC04 PropC43 PropC49 PropC18 PropC35 PropC72.
From Verif Require Import Gql Json Args SpecGtext SpecJson SpecJtext GlayoutFacts PropC69.
From Verif Require SpecArgs PropC07 PropC13 PropC17 PropC65 PropC67.

(** The declared type allows every response, whatever it may contain besides; and, with the further conditions
    [implements_exactly], [tagged_once] and [base_tight], it allows nothing else *)
Theorem C74_partial : forall js fuel cx c o d ws co P l active custom,
  order_ok (cx_order cx) -> order_ok o -> introspection js (cx_schema cx) -> plain_wrappers js -> proper_types (cx_schema cx) ->
  document_file fuel cx c o d ws co -> doc_root d = Some (P, l) -> is_subscription d = false ->
  frags_valid (cx_schema cx) (cx_frags cx) l -> Forall (fun v => valid_gtype (vgtype v) = true) (doc_vars d) ->
  NoDup (List.map vd_name (doc_vars d)) ->
  regular (cx_schema cx) (cx_frags cx) P (fun x => In x l) ->
  labels_apart (cx_schema cx) (cx_frags cx) P (fun x => In x l) ->
  (forall x, In x l -> unconditional active x) ->
  (forall n fd, aget n (cx_frags cx) = Some fd -> Forall (unconditional active) (fr_sels fd)) ->
  (forall x, leaf_name c js x -> ~ declares_name (def_name d) x) ->
  exists m rest, written_as cx c d co m /\ tf_args m = def_name d :: rest /\
    (forall v, response js (cx_schema cx) (cx_frags cx) active custom P l v ->
       exists n, forall base, base_ok c js custom base -> allows (tf_decls m) base n (def_name d) v) /\
    (implements_exactly js (cx_schema cx) -> tagged_once (cx_schema cx) (cx_frags cx) P (fun x => In x l) ->
     forall base v n, base_tight c js custom base -> tidy v -> allows (tf_decls m) base n (def_name d) v ->
       response js (cx_schema cx) (cx_frags cx) active custom P l v).
Proof.
  intros js fuel cx c o d ws co P l active custom O O' In W Pt H Dr Su Fv Vv Nv R L U Uf Und.
  pose proof (intro_consistent _ _ In) as Co.
  destruct (document_described _ _ _ _ _ _ _ _ _ O O' Co Pt H Dr Su Fv) as (op & ds & us & vds & vus & _ & V & _ & K & En & _ & Ev & Rn & Rv & Eg & Et & X).
  pose proof (var_decls c _ d op vds vus Vv Ev Rv Nv) as Vd.
  assert (Nd : NoDup (List.map decl_name (ds ++ vds))).
  { destruct (rnd_once c (cx_schema cx) (cx_frags cx) Co Pt) as (_ & _ & _ & Y). specialize (Y _ _ _ _ Rn _ _ K (regular_unambiguous _ _ _ _ R) L).
    apply names_app; auto.
    - destruct Vd as [->|(ms' & -> & N)]; repeat constructor. intros [].
    - intros x y I J E. destruct Vd as [->|(ms' & -> & N)]; [destruct J|]. destruct J as [<-|[]]. cbn [decl_name] in E. rewrite En in E.
      destruct (rnd_coll_names c _ _ _ _ Rn x I) as [Ex|(r & Ex)]; rewrite Ex in E.
      + rewrite <- (sapp_nil_r (def_name d)) in E at 1. apply sapp_inj_l in E. discriminate.
      + apply sapp_inj_l in E. discriminate. }
  assert (Ud : forall x y, leaf_name c js x -> List.In y (ds ++ vds) -> decl_name y <> x).
  { intros x y Lx J E. apply (Und x Lx). unfold declares_name. rewrite <- E. apply in_app_or in J. destruct J as [J|J].
    - destruct (rnd_coll_names c _ _ _ _ Rn y J) as [Ex|(r & Ex)]; eauto.
    - destruct Vd as [->|(ms' & -> & N)]; [destruct J|]. destruct J as [<-|[]]. cbn [decl_name]. rewrite En. auto. }
  exists (file_of c op (ds ++ vds) (co_globals co)), (match op_kind op with OKFragment => [] | _ => [vars_arg op] end).
  split; auto. split.
  { cbn [file_of tf_args]. unfold node_args. rewrite En. destruct (op_kind op); reflexivity. }
  cbn [file_of tf_decls]. split.
  - intros v (n & T & Po & Rs). exists (S (n + n)). intros base B.
    apply (object_allowed c js (cx_schema cx) (cx_frags cx) active custom base (ds ++ vds) In W Uf Nd Ud B n T P (fun x => List.In x l)); auto.
    + apply X; auto. intros y J. apply in_or_app. auto.
    + apply valid_in. exact V.
  - intros Ie Tg base v n B Td A.
    destruct (allowed_object c js (cx_schema cx) (cx_frags cx) active custom base (ds ++ vds) In W Uf Nd Ud B Ie ds) with (n := n) (P := P) (M := fun x => List.In x l) (main := def_name d) (v := v) as (T & Po & Rs); auto.
    + intros y J. apply in_or_app. auto.
    + destruct (rnd_required c) as (_ & _ & _ & Y). eapply Y; eauto.
    + apply X; auto. intros y J. auto.
    + apply valid_in. exact V.
    + exists n, T. auto.
Qed.
Print Assumptions C74_partial.

(** Scalars as the names from elsewhere have them, null included: the declared type allows exactly the responses in which a
    scalar may have these values.  With [any] for a scalar, null may stand in for a non-null value of it, and nothing else may *)
Theorem C74_wide_partial : forall js fuel cx c o d ws co P l active,
  implements_exactly js (cx_schema cx) -> tagged_once (cx_schema cx) (cx_frags cx) P (fun x => In x l) ->
  order_ok (cx_order cx) -> order_ok o -> introspection js (cx_schema cx) -> plain_wrappers js -> proper_types (cx_schema cx) ->
  document_file fuel cx c o d ws co -> doc_root d = Some (P, l) -> is_subscription d = false ->
  frags_valid (cx_schema cx) (cx_frags cx) l -> Forall (fun v => valid_gtype (vgtype v) = true) (doc_vars d) ->
  NoDup (List.map vd_name (doc_vars d)) ->
  regular (cx_schema cx) (cx_frags cx) P (fun x => In x l) ->
  labels_apart (cx_schema cx) (cx_frags cx) P (fun x => In x l) ->
  (forall x, In x l -> unconditional active x) ->
  (forall n fd, aget n (cx_frags cx) = Some fd -> Forall (unconditional active) (fr_sels fd)) ->
  (forall x, leaf_name c js x -> ~ declares_name (def_name d) x) ->
  exists m rest, written_as cx c d co m /\ tf_args m = def_name d :: rest /\
    forall si v,
      (wide_response js (cx_schema cx) (cx_frags cx) active si P l v ->
         exists n, forall base, base_means c js si base -> allows (tf_decls m) base n (def_name d) v) /\
      (tidy v -> forall base n, base_means c js si base -> allows (tf_decls m) base n (def_name d) v ->
         wide_response js (cx_schema cx) (cx_frags cx) active si P l v).
Proof.
  intros js fuel cx c o d ws co P l active Ie Tg O O' In W Pt H Dr Su Fv Vv Nv R L U Uf Und.
  pose proof (intro_consistent _ _ In) as Co.
  destruct (document_described _ _ _ _ _ _ _ _ _ O O' Co Pt H Dr Su Fv) as (op & ds & us & vds & vus & _ & V & _ & K & En & _ & Ev & Rn & Rv & Eg & Et & X).
  pose proof (var_decls c _ d op vds vus Vv Ev Rv Nv) as Vd.
  assert (Nd : NoDup (List.map decl_name (ds ++ vds))).
  { destruct (rnd_once c (cx_schema cx) (cx_frags cx) Co Pt) as (_ & _ & _ & Y). specialize (Y _ _ _ _ Rn _ _ K (regular_unambiguous _ _ _ _ R) L).
    apply names_app; auto.
    - destruct Vd as [->|(ms' & -> & N)]; repeat constructor. intros [].
    - intros x y I J E. destruct Vd as [->|(ms' & -> & N)]; [destruct J|]. destruct J as [<-|[]]. cbn [decl_name] in E. rewrite En in E.
      destruct (rnd_coll_names c _ _ _ _ Rn x I) as [Ex|(r & Ex)]; rewrite Ex in E.
      + rewrite <- (sapp_nil_r (def_name d)) in E at 1. apply sapp_inj_l in E. discriminate.
      + apply sapp_inj_l in E. discriminate. }
  assert (Ud : forall x y, leaf_name c js x -> List.In y (ds ++ vds) -> decl_name y <> x).
  { intros x y Lx J E. apply (Und x Lx). unfold declares_name. rewrite <- E. apply in_app_or in J. destruct J as [J|J].
    - destruct (rnd_coll_names c _ _ _ _ Rn y J) as [Ex|(r & Ex)]; eauto.
    - destruct Vd as [->|(ms' & -> & N)]; [destruct J|]. destruct J as [<-|[]]. cbn [decl_name]. rewrite En. auto. }
  exists (file_of c op (ds ++ vds) (co_globals co)), (match op_kind op with OKFragment => [] | _ => [vars_arg op] end).
  split; auto. split.
  { cbn [file_of tf_args]. unfold node_args. rewrite En. destruct (op_kind op); reflexivity. }
  cbn [file_of tf_decls]. intros si v. split.
  - intros (n & T & Po & Rs). exists (S (n + n)). intros base B.
    apply (wide_allowed c js (cx_schema cx) (cx_frags cx) active si base (ds ++ vds) In W Uf Nd Ud B Ie n T P (fun x => List.In x l)); auto.
    + apply X; auto. intros y J. apply in_or_app. auto.
    + apply valid_in. exact V.
  - intros Td base n B A.
    destruct (allowed_wide_object c js (cx_schema cx) (cx_frags cx) active si base (ds ++ vds) In W Uf Nd Ud B Ie ds) with (n := n) (P := P) (M := fun x => List.In x l) (main := def_name d) (v := v) as (T & Po & Rs); auto.
    + intros y J. apply in_or_app. auto.
    + destruct (rnd_required c) as (_ & _ & _ & Y). eapply Y; eauto.
    + apply X; auto. intros y J. auto.
    + apply valid_in. exact V.
    + exists n, T. auto.
Qed.
Print Assumptions C74_wide_partial.

(** *** The modules of a run *)
Lemma run_exported : forall fuel wo a sched cf js s out f',
  let rc := merge_config (wo_ncpus wo) a cf in
  let c := cconfig_of rc in
  let e := wo_env wo in
  let ls := wo_listing wo in
  let root := rc_root_dir rc in
  let f := wo_fs wo in
  let gl := env_locate e (globals_path c root) in
  settled wo a cf js s -> wo_schema wo (rc_schema_path rc) = SRDecoded js ->
  aliases_apart c js -> cc_docnode_module c <> cc_globals_module c ->
  (forall text ds d, env_parse e text = Ok ds -> In d ds -> parsed_named d) ->
  qlc fuel wo a sched = Exited 0 out f' ->
  forall path, is_source ls root path -> exists contents d frags,
    f (env_locate e path) = Ok contents /\ env_parse e contents = Ok [d] /\ imported_fragments e f c path contents frags /\
    (is_subscription d = false -> ~ reserved (def_name d) ->
     exists text M G P l node rest ws co,
       f' (out_loc e path) = Ok text /\ only_reads text M /\
       (forall x, imports_from M (cc_globals_module c) x ->
          module_declares G x /\ exists gtext, f' gl = Ok gtext /\ only_reads gtext G) /\
       In (ItConst "graphqlDocument" node (def_name d :: rest)) M /\ In (ItDefault "graphqlDocument") M /\
       doc_root d = Some (P, l) /\
       order_ok (cx_order (file_ctx e c s path frags)) /\ order_ok (suborder (env_order e path) [2; 0]) /\ proper_types s /\
       document_file fuel (file_ctx e c s path frags) c (suborder (env_order e path) [2; 0]) d ws co /\ frags_valid s frags l /\
       forall m', written_as (file_ctx e c s path frags) c d co m' -> forall amb n v,
         allows (tf_decls m') (beyond js amb G n) n (def_name d) v <-> module_allows (cc_globals_module c) G M amb n (def_name d) v).
Proof.
  intros fuel wo a sched cf js s out f' rc c e ls root f gl Se Es Al Dm Pn H path Sp.
  pose proof Se as [_ In0 Jn _ _ _ _ _ _ _ _]. pose proof (in_loaded _ _ In0) as L. pose proof (intro_consistent _ _ In0) as Co.
  pose proof (loaded_nameable _ _ _ L Jn) as Nm.
  destruct (run_linked fuel wo a sched cf js s out f' Se Es Pn H) as (Outs & Gt & Globs).
  destruct (Outs path Sp) as (contents & d & frags & ws & co & Er & Ep & Ic & D & Oc & Od & Eo & Va & Dn & Ug).
  exists contents, d, frags. split; [exact Er|]. split; [exact Ep|]. split; [exact Ic|]. intros Su Nr.
  destruct (Va Su) as (P & l & Dr & V & Fv). specialize (Dn Nr).
  destruct (PropC17.C17_closed _ _ _ _ _ _ _ Oc Od Co D) as (m & W & Cl & Us & Ar).
  destruct (PropC13.C13_partial _ _ _ _ _ _ _ Oc Od Co D Su) as (m1 & W1 & En & Ea & _).
  pose proof (written_same _ _ _ _ _ _ W1 W Nm Dn) as X1. pose proof (items_inj _ _ X1) as (E1 & _ & _ & E2).
  destruct (document_inv _ _ _ _ _ _ _ Oc Od Co D) as (P' & p' & l' & op & ds & us & vds & vus & _ & _ & _ & _ & _ & _ & _ & _ & _ & Eg & W3).
  pose proof (written_same _ _ _ _ _ _ W3 W Nm Dn) as X3. pose proof (items_inj _ _ X3) as (_ & Eg' & _). cbn [file_of tf_globals] in Eg'.
  assert (Gin : forall n, In n (tf_globals m) -> uses_global fuel e ls c s root f n).
  { intros n J. rewrite <- Eg' in J. eapply Permutation_in in J; [|symmetry; apply sort_by_perm]. apply Ug. exact J. }
  assert (Gf : tf_globals m <> [] -> tf_globals_from m = cc_globals_module c).
  { intros Ne. unfold tsfile_items in X3. injection X3 as _ _ X3. cbn [file_of tf_globals tf_globals_from] in X3. rewrite Eg' in X3.
    destruct (tf_globals m); [congruence|]. injection X3. auto. }
  assert (Nf : tf_node_from m = cc_docnode_module c) by (unfold tsfile_items in X3; injection X3 as _ E _; symmetry; exact E).
  assert (Nn : In (tf_node m) node_names).
  { rewrite <- E1, En. destruct d as [[? ?|[] ? ? ? ? ?]|]; cbn; auto. }
  assert (Ga : exists G (lj : list (string * jtypedef)), Forall2 (fun x it => SpecStmt.stmt_for c (fst x) (snd x) it) lj G /\
            (forall n j, In (n, j) lj -> last_named jt_name n js j) /\
            (forall n, In n (tf_globals m) -> In n (List.map fst lj)) /\
            (tf_globals m <> [] -> exists gtext, f' gl = Ok gtext /\ only_reads gtext G)).
  { destruct (tf_globals m) as [|g gs] eqn:Et.
    - exists [], []. split; [constructor|]. split; [intros n j []|]. split; [intros n []|congruence].
    - destruct Globs as (gtext & lj & G & Eg2 & Og & _ & Fg & Kl & Kg). { exists g. apply Gin. left; auto. }
      exists G, lj. split; auto. split; auto. split; [|eauto]. intros n J. apply Kg. split; [exists n; split; [apply Gin; auto|constructor]|].
      destruct (Gt n (Gin n J)) as (t & Gn & _). congruence. }
  destruct Ga as (G & lj & Fg & Kl & Gl & Gr).
  assert (Ta : exists rest, tf_args m = def_name d :: rest).
  { rewrite <- E2, Ea. clear - Dr. destruct d as [[? ?|[] ? [nm|] ? ? ?]|]; [discriminate Dr|..]; cbn; eexists; reflexivity. }
  destruct Ta as (rest & Ta).
  exists (co_contents co), (tsfile_items m), G, P, l, (tf_node m), rest, ws, co.
  split; [exact Eo|]. split; [exact (proj2 W Nm Dn)|]. split; [|split; [|split; [|split; [exact Dr|]]]].
  - intros x (ns & I & J). assert (Jg : In x (tf_globals m)).
    { unfold tsfile_items in I. destruct I as [E|I]; [exfalso; injection E as _ E; apply Dm; rewrite <- Nf; exact E|]. apply in_app_or in I. destruct I as [I|I].
      - destruct (tf_globals m) as [|g gs]; [destruct I|]. destruct I as [E|[]]. injection E as <- _. exact J.
      - exfalso. apply in_app_or in I. destruct I as [I|[I|[I|[]]]]; try discriminate. apply in_map_iff in I. destruct I as (z & E & _). discriminate. }
    split; [|apply Gr; intros E; rewrite E in Jg; destruct Jg].
    specialize (Gl x Jg). apply in_map_iff in Gl. destruct Gl as ([x' j] & E & Ij). cbn in E. subst x'.
    destruct (proj2 (stmt_of c lj G Fg) x j Ij) as (it & Iit & S). destruct S; [right; eauto|left]. eexists. split; [exact Iit|reflexivity].
  - unfold tsfile_items. right. apply in_or_app. right. apply in_or_app. right. left. rewrite Ta. reflexivity.
  - unfold tsfile_items. right. apply in_or_app. right. apply in_or_app. right. right. left. reflexivity.
  - split; [exact Oc|]. split; [exact Od|]. split; [exact (nameable_proper _ _ Nm)|]. split; [exact D|]. split; [exact Fv|].
    intros m4 W4 amb.
    pose proof (written_same _ _ _ _ _ _ W4 W Nm Dn) as X4. pose proof (items_inj _ _ X4) as (_ & _ & Eb & _).
    assert (Same : forall base n v, allows (tf_decls m4) base n (def_name d) v <-> allows (tf_decls m) base n (def_name d) v).
    { intros base n v. rewrite (allows_bare (tf_decls m4)), Eb, <- (allows_bare (tf_decls m)). reflexivity. }
    assert (Dd : PropC17.declared (tf_decls m) (def_name d)).
    { destruct (Ar (def_name d)) as [E|E]; auto; [rewrite Ta; left; auto|]. exfalso. apply Nr. rewrite E. right. vm_compute. tauto. }
    pose (m0 := {| tf_node := tf_node m; tf_node_from := tf_node_from m; tf_globals := tf_globals m; tf_globals_from := cc_globals_module c;
                   tf_decls := tf_decls m; tf_args := tf_args m |}).
    assert (Ei : tsfile_items m0 = tsfile_items m).
    { unfold tsfile_items, m0. cbn [tf_node tf_node_from tf_globals tf_globals_from tf_decls tf_args].
      destruct (tf_globals m) as [|g gs]; [reflexivity|]. rewrite Gf by discriminate. reflexivity. }
    assert (Lk : forall n v, allows (tf_decls m) (beyond js amb G n) n (def_name d) v <-> module_allows (cc_globals_module c) G (tsfile_items m) amb n (def_name d) v).
    { intros n v. rewrite <- Ei. apply (linked_allows c js s amb In0 Jn Al G lj Fg Kl m0); auto. }
    intros n v. rewrite Same. apply Lk.
Qed.

(** The run exits with code 0, whatever the parser: as C72_run_partial, with the type arguments of the exported
    constants allowing exactly the responses *)
Theorem C74_run_partial : forall fuel wo a sched cf js s out f',
  let rc := merge_config (wo_ncpus wo) a cf in
  let c := cconfig_of rc in
  let e := wo_env wo in
  let ls := wo_listing wo in
  let root := rc_root_dir rc in
  let f := wo_fs wo in
  let gl := env_locate e (globals_path c root) in
  settled wo a cf js s -> wo_schema wo (rc_schema_path rc) = SRDecoded js ->
  plain_wrappers js -> aliases_apart c js -> cc_docnode_module c <> cc_globals_module c ->
  (forall text ds d, env_parse e text = Ok ds -> In d ds -> parsed_named d) ->
  qlc fuel wo a sched = Exited 0 out f' ->
  forall path, is_source ls root path -> exists contents d frags,
    f (env_locate e path) = Ok contents /\ env_parse e contents = Ok [d] /\ imported_fragments e f c path contents frags /\
    (is_subscription d = false -> ~ reserved (def_name d) ->
     Forall (fun v => valid_gtype (vgtype v) = true) (doc_vars d) -> NoDup (List.map vd_name (doc_vars d)) ->
     (forall x, leaf_name c js x -> ~ declares_name (def_name d) x) ->
     exists text M G P l node rest,
       f' (out_loc e path) = Ok text /\ only_reads text M /\
       (forall x, imports_from M (cc_globals_module c) x ->
          module_declares G x /\ exists gtext, f' gl = Ok gtext /\ only_reads gtext G) /\
       In (ItConst "graphqlDocument" node (def_name d :: rest)) M /\ In (ItDefault "graphqlDocument") M /\
       doc_root d = Some (P, l) /\
       forall active custom amb,
         regular s frags P (fun x => In x l) -> labels_apart s frags P (fun x => In x l) ->
         (forall x, In x l -> unconditional active x) ->
         (forall n fd, aget n frags = Some fd -> Forall (unconditional active) (fr_sels fd)) ->
         (surroundings c js custom amb -> forall v, response js s frags active custom P l v ->
            exists n, module_allows (cc_globals_module c) G M amb n (def_name d) v) /\
         (implements_exactly js s -> tagged_once s frags P (fun x => In x l) -> surroundings_tight c js custom amb ->
          forall v n, tidy v -> module_allows (cc_globals_module c) G M amb n (def_name d) v ->
            response js s frags active custom P l v)).
Proof.
  intros fuel wo a sched cf js s out f' rc c e ls root f gl Se Es Pw Al Dm Pn H path Sp.
  destruct (run_exported fuel wo a sched cf js s out f' Se Es Al Dm Pn H path Sp) as (contents & d & frags & Er & Ep & Ic & K).
  exists contents, d, frags. split; [exact Er|]. split; [exact Ep|]. split; [exact Ic|]. intros Su Nr Vv Nv Le. pose proof Se as [_ In0 Jn _ _ _ _ _ _ _ _].
  destruct (K Su Nr) as (text & M & G & P & l & node & rest & ws & co & Et & Rt & Im & Ia & Id & Dr & Oc & Od & Pt & D & Fv & Lk). clear K.
  exists text, M, G, P, l, node, rest. repeat (split; [assumption|]). intros active custom amb R Lb U Uf.
  destruct (C74_partial js fuel (file_ctx e c s path frags) c (suborder (env_order e path) [2; 0]) d ws co P l active custom
    Oc Od In0 Pw Pt D Dr Su Fv Vv Nv R Lb U Uf Le) as (m4 & rest' & W4 & _ & A & B).
  split.
  - intros Sur v Rs. destruct (A v Rs) as (n & An). exists n. apply (Lk m4 W4), An. apply (beyond_ok c js custom amb Jn Al); auto.
  - intros Ie Tg St v n Td Av. apply (Lk m4 W4) in Av. eapply B; eauto. apply (beyond_tight c js custom amb Jn Al); auto.
Qed.
Print Assumptions C74_run_partial.

(** Nothing is asked of the surroundings: the type allows exactly the responses with scalars as the surroundings have them *)
Theorem C74_exact_partial : forall fuel wo a sched cf js s out f',
  let rc := merge_config (wo_ncpus wo) a cf in
  let c := cconfig_of rc in
  let e := wo_env wo in
  let ls := wo_listing wo in
  let root := rc_root_dir rc in
  let f := wo_fs wo in
  let gl := env_locate e (globals_path c root) in
  settled wo a cf js s -> wo_schema wo (rc_schema_path rc) = SRDecoded js ->
  plain_wrappers js -> implements_exactly js s -> aliases_apart c js -> cc_docnode_module c <> cc_globals_module c ->
  (forall text ds d, env_parse e text = Ok ds -> In d ds -> parsed_named d) ->
  qlc fuel wo a sched = Exited 0 out f' ->
  forall path, is_source ls root path -> exists contents d frags,
    f (env_locate e path) = Ok contents /\ env_parse e contents = Ok [d] /\ imported_fragments e f c path contents frags /\
    (is_subscription d = false -> ~ reserved (def_name d) ->
     Forall (fun v => valid_gtype (vgtype v) = true) (doc_vars d) -> NoDup (List.map vd_name (doc_vars d)) ->
     (forall x, leaf_name c js x -> ~ declares_name (def_name d) x) ->
     exists text M G P l node rest,
       f' (out_loc e path) = Ok text /\ only_reads text M /\
       (forall x, imports_from M (cc_globals_module c) x ->
          module_declares G x /\ exists gtext, f' gl = Ok gtext /\ only_reads gtext G) /\
       In (ItConst "graphqlDocument" node (def_name d :: rest)) M /\ In (ItDefault "graphqlDocument") M /\
       doc_root d = Some (P, l) /\
       forall active amb,
         regular s frags P (fun x => In x l) -> labels_apart s frags P (fun x => In x l) -> tagged_once s frags P (fun x => In x l) ->
         (forall x, In x l -> unconditional active x) ->
         (forall n fd, aget n frags = Some fd -> Forall (unconditional active) (fr_sels fd)) ->
         forall v, tidy v ->
           ((exists n, module_allows (cc_globals_module c) G M amb n (def_name d) v) <->
            wide_response js s frags active (surrounding c amb) P l v)).
Proof.
  intros fuel wo a sched cf js s out f' rc c e ls root f gl Se Es Pw Ie Al Dm Pn H path Sp.
  destruct (run_exported fuel wo a sched cf js s out f' Se Es Al Dm Pn H path Sp) as (contents & d & frags & Er & Ep & Ic & K).
  exists contents, d, frags. split; [exact Er|]. split; [exact Ep|]. split; [exact Ic|]. intros Su Nr Vv Nv Le. pose proof Se as [_ In0 Jn _ _ _ _ _ _ _ _].
  destruct (K Su Nr) as (text & M & G & P & l & node & rest & ws & co & Et & Rt & Im & Ia & Id & Dr & Oc & Od & Pt & D & Fv & Lk). clear K.
  exists text, M, G, P, l, node, rest. repeat (split; [assumption|]). intros active amb R Lb Tg U Uf v Td.
  destruct (C74_wide_partial js fuel (file_ctx e c s path frags) c (suborder (env_order e path) [2; 0]) d ws co P l active
    Ie Tg Oc Od In0 Pw Pt D Dr Su Fv Vv Nv R Lb U Uf Le) as (m4 & rest' & W4 & _ & X).
  destruct (X (surrounding c amb) v) as [A B]. split.
  - intros (n & Av). apply (Lk m4 W4) in Av. eapply B; eauto. apply (beyond_means c js (fun _ _ => False) amb Jn Al).
  - intros Rs. destruct (A Rs) as (n & An). exists n. apply (Lk m4 W4), An. apply (beyond_means c js (fun _ _ => False) amb Jn Al).
Qed.
Print Assumptions C74_exact_partial.

Lemma occ_frags s fr fr' : (forall n, aget n fr = aget n fr' :> option fragdef) -> forall T P M k P' n ss, occ s fr T P M k P' n ss -> occ s fr' T P M k P' n ss.
Proof.
  intros H T P M k P' n ss O. induction O as [P M p al n a d sub I|P M p c d sub k P' n ss I Po _ IH|P M p name d fd k P' n ss I G Po _ IH].
  - eapply occ_field; eauto.
  - eapply occ_inline; eauto.
  - eapply occ_spread; eauto. rewrite <- H. exact G.
Qed.
Lemma occ_ext s fr T P (M M' : selset) k P' n ss : (forall x, M x -> M' x) -> occ s fr T P M k P' n ss -> occ s fr T P M' k P' n ss.
Proof. intros H O. destruct O; [eapply occ_field|eapply occ_inline|eapply occ_spread]; eauto. Qed.
Lemma tagged_frags s fr fr' : (forall n, aget n fr = aget n fr' :> option fragdef) -> forall P M, tagged_once s fr P M ->
  forall M', (forall x, M x <-> M' x) -> tagged_once s fr' P M'.
Proof.
  intros H P M T. induction T as [P M A B IH]. intros M' E.
  assert (Oc : forall T k P' n ss, occ s fr T P M k P' n ss <-> occ s fr' T P M' k P' n ss).
  { intros T k P' n ss. split; intros O.
    - eapply occ_ext; [intros x; apply E|]. eapply occ_frags; eauto.
    - eapply occ_ext; [intros x; apply E|]. eapply occ_frags; [|exact O]. intros y. symmetry. apply H. }
  constructor.
  - intros T k k' P1 P2 ss ss' Po O O'. eapply A; [exact Po| |]; apply Oc; eauto.
  - intros T k f ss Po (P' & n & O & Ff) Cp. apply (IH T k f ss Po); [exists P', n; split; auto; apply Oc; auto|exact Cp|].
    intros x. unfold merged. split; intros (f' & ss' & (P2 & n2 & O2 & F2) & Ef & Ix); exists f', ss'; (split; [exists P2, n2; split; auto; apply Oc; auto|auto]).
Qed.

(** From texts to texts: as C72_text_partial *)
Theorem C74_text_partial : forall ck complaint jerr help version fuel wo its argv a nc sched cf stext j js s out f',
  let rc := merge_config (wo_ncpus wo) a cf in
  let c := cconfig_of rc in
  let e := wo_env wo in
  let ls := wo_listing wo in
  let root := rc_root_dir rc in
  let f := wo_fs wo in
  let gl := env_locate e (globals_path c root) in
  on_disk ck complaint jerr wo ->
  SpecArgs.spelled its argv -> SpecArgs.consistent its -> SpecArgs.complete its -> SpecArgs.says its a nc ->
  settled wo a cf js s ->
  f (env_locate e (rc_schema_path rc)) = Ok stext -> text_holds stext j -> says_schema j js -> fits js ->
  plain_wrappers js -> aliases_apart c js -> cc_docnode_module c <> cc_globals_module c -> implements_exactly js s ->
  qlc_command help version fuel wo argv sched = Exited 0 out f' ->
  forall path contents d frags P l active custom amb, is_source ls root path ->
    f (env_locate e path) = Ok contents -> text_says ck contents [d] -> PropC07.imported_fragments e f c path contents frags ->
    is_subscription d = false -> doc_root d = Some (P, l) -> ~ reserved (def_name d) -> NoDup (List.map vd_name (doc_vars d)) ->
    (forall x, leaf_name c js x -> ~ declares_name (def_name d) x) ->
    surroundings c js custom amb -> surroundings_tight c js custom amb ->
    regular s frags P (fun x => In x l) -> labels_apart s frags P (fun x => In x l) -> tagged_once s frags P (fun x => In x l) ->
    (forall x, In x l -> unconditional active x) ->
    (forall n fd, aget n frags = Some fd -> Forall (unconditional active) (fr_sels fd)) ->
    exists text M G node rest,
      f' (out_loc e path) = Ok text /\ only_reads text M /\
      (forall x, imports_from M (cc_globals_module c) x ->
         module_declares G x /\ exists gtext, f' gl = Ok gtext /\ only_reads gtext G) /\
      In (ItConst "graphqlDocument" node (def_name d :: rest)) M /\ In (ItDefault "graphqlDocument") M /\
      forall v, tidy v ->
        ((exists n, module_allows (cc_globals_module c) G M amb n (def_name d) v) <->
         response js s frags active custom P l v).
Proof.
  intros ck complaint jerr help version fuel wo its argv a nc sched cf stext j js s out f' rc c e ls root f gl
    [Hd Hs] Sp Cn Cm Sy Se Es Th Sj Fi Pw Al Dm Ie H path contents d frags P l active custom amb Src Ec Ts If Su Dr Nr Nv Le Sur St R Lb Tg U Uf.
  assert (Pa : parse_args argv = URun a nc) by (apply PropC65.C65_exact; eauto).
  assert (Hq : qlc fuel wo a sched = Exited 0 out f') by (unfold qlc_command in H; rewrite Pa in H; exact H).
  assert (Sc : wo_schema wo (rc_schema_path rc) = SRDecoded js).
  { rewrite (Hs _ _ Es). apply PropC67.C67_schema. eauto. }
  assert (Pn : forall text ds d, env_parse e text = Ok ds -> In d ds -> parsed_named d).
  { intros text ds d0 E I. rewrite Hd in E. destruct (parse_query ck text) as [ds'|] eqn:Ep; [|discriminate]. injection E as ->. eapply C69_named; eauto. }
  destruct (C74_run_partial fuel wo a sched cf js s out f' Se Sc Pw Al Dm Pn Hq path Src) as (contents' & d' & frags' & Ec' & Ep & If' & K).
  assert (contents' = contents).
  { assert (X : f (env_locate e path) = Ok contents') by exact Ec'. rewrite Ec in X. congruence. }
  subst contents'.
  assert (d' = d).
  { rewrite Hd in Ep. apply C69_text in Ts. rewrite Ts in Ep. congruence. }
  subst d'. pose proof (fragments_agree _ _ _ _ _ _ _ If' If) as Ag.
  destruct (K Su Nr (text_vars_valid ck contents [d] d Ts (or_introl eq_refl)) Nv Le) as (text & M & G & P' & l' & node & rest & Et & Rt & Im & Ic & Idf & Dr' & A).
  assert (X : P' = P /\ l' = l) by (rewrite Dr in Dr'; injection Dr' as <- <-; auto). destruct X as [-> ->].
  exists text, M, G, node, rest. split; [exact Et|]. split; [exact Rt|]. split; [exact Im|]. split; [exact Ic|]. split; [exact Idf|].
  destruct (A active custom amb) as [A1 A2].
  - eapply regular_ext; [intros n; symmetry; apply Ag|exact R|tauto].
  - eapply labels_apart_ext; [intros n; symmetry; apply Ag|exact Lb|tauto].
  - exact U.
  - intros n fd E. apply (Uf n). rewrite <- Ag. exact E.
  - intros v Td. split.
    + intros (n & An). eapply response_frags; [intros m; apply Ag|]. eapply A2; eauto. eapply tagged_frags; [intros m; symmetry; apply Ag|exact Tg|tauto].
    + intros Rs. apply A1; auto. eapply response_frags; [|exact Rs]. intros n. symmetry. apply Ag.
Qed.
Print Assumptions C74_text_partial.

Lemma wide_object_frags js s frags frags' active si : (forall n, aget n frags = aget n frags' :> option fragdef) ->
  forall n T M v, wide_object js s frags active si n T M v -> wide_object js s frags' active si n T M v.
Proof.
  intros H.
  assert (X : forall T M k fld ss, collects s frags active T M k fld ss <-> collects s frags' active T M k fld ss).
  { intros T M k fld ss. split; apply LinkExt.collects_ext; intros n; [apply H|symmetry; apply H]. }
  induction n as [|n IH]; intros T M v; [intros []|]. cbn [wide_object]. intros (kvs & -> & K & F). exists kvs. split; auto. split.
  - intros k. rewrite K. split; intros (fld & ss & C); exists fld, ss; apply X; auto.
  - intros k x J. destruct (F k x J) as (fld & ss & C & [E|(kind & g & D & G)]); exists fld, ss; (split; [apply X; exact C|]); auto.
    right. exists kind, g. split; auto. eapply wide_values_mono; [|exact G]. intros y [L|(T' & Po & R)]; auto. right. exists T'. split; auto.
    eapply wide_object_ext; [|apply IH; exact R]. intros z. split; intros (f' & ss' & C' & Iz); exists f', ss'; (split; [apply X; exact C'|auto]).
Qed.
Lemma wide_frags js s frags frags' active si P l v : (forall n, aget n frags = aget n frags' :> option fragdef) ->
  wide_response js s frags active si P l v -> wide_response js s frags' active si P l v.
Proof. intros H (n & T & Po & R). exists n, T. split; auto. eapply wide_object_frags; eauto. Qed.
(** The same with scalars as the surroundings have them *)
Theorem C74_exact_text_partial : forall ck complaint jerr help version fuel wo its argv a nc sched cf stext j js s out f',
  let rc := merge_config (wo_ncpus wo) a cf in
  let c := cconfig_of rc in
  let e := wo_env wo in
  let ls := wo_listing wo in
  let root := rc_root_dir rc in
  let f := wo_fs wo in
  let gl := env_locate e (globals_path c root) in
  on_disk ck complaint jerr wo ->
  SpecArgs.spelled its argv -> SpecArgs.consistent its -> SpecArgs.complete its -> SpecArgs.says its a nc ->
  settled wo a cf js s ->
  f (env_locate e (rc_schema_path rc)) = Ok stext -> text_holds stext j -> says_schema j js -> fits js ->
  plain_wrappers js -> aliases_apart c js -> cc_docnode_module c <> cc_globals_module c -> implements_exactly js s ->
  qlc_command help version fuel wo argv sched = Exited 0 out f' ->
  forall path contents d frags P l active amb, is_source ls root path ->
    f (env_locate e path) = Ok contents -> text_says ck contents [d] -> PropC07.imported_fragments e f c path contents frags ->
    is_subscription d = false -> doc_root d = Some (P, l) -> ~ reserved (def_name d) -> NoDup (List.map vd_name (doc_vars d)) ->
    (forall x, leaf_name c js x -> ~ declares_name (def_name d) x) ->
    regular s frags P (fun x => In x l) -> labels_apart s frags P (fun x => In x l) -> tagged_once s frags P (fun x => In x l) ->
    (forall x, In x l -> unconditional active x) ->
    (forall n fd, aget n frags = Some fd -> Forall (unconditional active) (fr_sels fd)) ->
    exists text M G node rest,
      f' (out_loc e path) = Ok text /\ only_reads text M /\
      (forall x, imports_from M (cc_globals_module c) x ->
         module_declares G x /\ exists gtext, f' gl = Ok gtext /\ only_reads gtext G) /\
      In (ItConst "graphqlDocument" node (def_name d :: rest)) M /\ In (ItDefault "graphqlDocument") M /\
      forall v, tidy v ->
        ((exists n, module_allows (cc_globals_module c) G M amb n (def_name d) v) <->
         wide_response js s frags active (surrounding c amb) P l v).
Proof.
  intros ck complaint jerr help version fuel wo its argv a nc sched cf stext j js s out f' rc c e ls root f gl
    [Hd Hs] Sp Cn Cm Sy Se Es Th Sj Fi Pw Al Dm Ie H path contents d frags P l active amb Src Ec Ts If Su Dr Nr Nv Le R Lb Tg U Uf.
  assert (Pa : parse_args argv = URun a nc) by (apply PropC65.C65_exact; eauto).
  assert (Hq : qlc fuel wo a sched = Exited 0 out f') by (unfold qlc_command in H; rewrite Pa in H; exact H).
  assert (Sc : wo_schema wo (rc_schema_path rc) = SRDecoded js).
  { rewrite (Hs _ _ Es). apply PropC67.C67_schema. eauto. }
  assert (Pn : forall text ds d, env_parse e text = Ok ds -> In d ds -> parsed_named d).
  { intros text ds d0 E I. rewrite Hd in E. destruct (parse_query ck text) as [ds'|] eqn:Ep; [|discriminate]. injection E as ->. eapply C69_named; eauto. }
  destruct (C74_exact_partial fuel wo a sched cf js s out f' Se Sc Pw Ie Al Dm Pn Hq path Src) as (contents' & d' & frags' & Ec' & Ep & If' & K).
  assert (contents' = contents).
  { assert (X : f (env_locate e path) = Ok contents') by exact Ec'. rewrite Ec in X. congruence. }
  subst contents'.
  assert (d' = d).
  { rewrite Hd in Ep. apply C69_text in Ts. rewrite Ts in Ep. congruence. }
  subst d'. pose proof (fragments_agree _ _ _ _ _ _ _ If' If) as Ag.
  destruct (K Su Nr (text_vars_valid ck contents [d] d Ts (or_introl eq_refl)) Nv Le) as (text & M & G & P' & l' & node & rest & Et & Rt & Im & Ic & Idf & Dr' & A).
  assert (X : P' = P /\ l' = l) by (rewrite Dr in Dr'; injection Dr' as <- <-; auto). destruct X as [-> ->].
  exists text, M, G, node, rest. split; [exact Et|]. split; [exact Rt|]. split; [exact Im|]. split; [exact Ic|]. split; [exact Idf|].
  intros v Td.
  assert (R' : regular s frags' P (fun x => In x l)) by (eapply regular_ext; [intros n; symmetry; apply Ag|exact R|tauto]).
  assert (L' : labels_apart s frags' P (fun x => In x l)) by (eapply labels_apart_ext; [intros n; symmetry; apply Ag|exact Lb|tauto]).
  assert (T' : tagged_once s frags' P (fun x => In x l)) by (eapply tagged_frags; [intros m; symmetry; apply Ag|exact Tg|tauto]).
  assert (U' : forall n fd, aget n frags' = Some fd -> Forall (unconditional active) (fr_sels fd)) by (intros n fd E; apply (Uf n); rewrite <- Ag; exact E).
  destruct (A active amb R' L' T' U U' v Td) as [A1 A2]. split.
  - intros X. eapply wide_frags; [intros n; apply Ag|]. apply A1. exact X.
  - intros X. apply A2. eapply wide_frags; [|exact X]. intros n. symmetry. apply Ag.
Qed.
Print Assumptions C74_exact_text_partial.

(** ** Non-vacuity: the world of C72 *)
Lemma farm_exact : implements_exactly farm_json farm.
Proof. apply (exactb_ok farm_json farm true); vm_compute; reflexivity. Qed.
Lemma disk_tagged : tagged_once farm [("PetName", disk_fragment)] "Query" (fun x => In x disk_sels).
Proof.
  apply plain_tagged; [|exact disk_regular|].
  - intros n fd E. cbn [aget] in E. destruct (eqb n "PetName"); [|discriminate]. injection E as <-.
    apply Forall_forall. intros x I. apply plain_tagsb_ok. revert x I. apply Forall_forall. repeat constructor.
  - intros x I. apply plain_tagsb_ok. revert x I. apply Forall_forall. repeat constructor.
Qed.
Lemma disk_tight : surroundings_tight plain_config farm_json no_custom disk_amb.
Proof.
  constructor; try (cbn; eauto; fail). intros n x v _ Cw A. exfalso. cbn in Cw. subst x. exact A.
Qed.
(** The response above with a key that was not asked for, without one, and with null for a list *)
Definition extra_response : value :=
  match good_response with VObj kvs => VObj (kvs ++ [("more", VNull)]) | v => v end.
Definition short_response : value := match good_response with VObj (x :: _) => VObj [x] | v => v end.
Definition wrong_response : value := match good_response with VObj (x :: _) => VObj [x; ("all", VNull)] | v => v end.
Ltac tidied := repeat first [constructor | match goal with |- ~ _ => cbn; intuition discriminate end].
Example C74_nonvacuous : exists out f' text M G,
  qlc_command "" "" 30 disk_world ["--num-threads"; "1"] (repeat 0 90) = Exited 0 out f' /\
  f' "./g.graphql.d.ts" = Ok text /\ only_reads text M /\
  (exists n, module_allows "graphql-globals" G M disk_amb n "Q" good_response) /\
  (forall n, ~ module_allows "graphql-globals" G M disk_amb n "Q" extra_response) /\
  (forall n, ~ module_allows "graphql-globals" G M disk_amb n "Q" short_response) /\
  (forall n, ~ module_allows "graphql-globals" G M disk_amb n "Q" wrong_response).
Proof.
  assert (Pa : parse_args ["--num-threads"; "1"] = URun (args_threads 1) false) by reflexivity.
  apply PropC65.C65_exact in Pa. destruct Pa as (its & Sp & Cn & Cm & Sy).
  assert (X : exists j, text_holds farm_text j /\ says_schema j farm_json /\ fits farm_json) by (apply (PropC67.C67_schema ""); exact farm_text_read).
  destruct X as (j & Th & Sj & Fi).
  assert (H : exists out f', qlc_command "" "" 30 disk_world ["--num-threads"; "1"] (repeat 0 90) = Exited 0 out f').
  { do 2 eexists. vm_compute. reflexivity. }
  destruct H as (out & f' & H).
  assert (Dk : on_disk lenient (fun _ => "syntax error") "" disk_world).
  { split; [reflexivity|]. intros p t E. cbn [disk_world wo_schema]. cbn [disk_world wo_fs wo_env] in E. change (disk_files p = Ok t) in E. rewrite E. reflexivity. }
  assert (Cq : exists r, cols farm [("PetName", disk_fragment)] always 9 "Query" disk_sels = Some r /\ List.map (fun x : col => fst (fst x)) r = ["pet"; "all"]) by (eexists; split; vm_compute; reflexivity).
  assert (Rk : forall n T, possible farm "Query" T -> forall kvs k, object_response farm_json farm [("PetName", disk_fragment)] (active_of always) no_custom n T (fun x => In x disk_sels) (VObj kvs) ->
            (In k (List.map fst kvs) <-> k = "pet" \/ k = "all")).
  { intros n T Po kvs k Rs. apply possibles_ok in Po. destruct Po as [<-|[]]. destruct n as [|n]; [destruct Rs|]. destruct Rs as (kvs' & E & K & _). injection E as <-.
    rewrite K. destruct Cq as (r & C & Er). pose proof (cols_ok farm _ always no_custom 9 "Query" disk_sels r C) as Ck. split.
    - intros (fld & ss & Cl). apply Ck in Cl. apply (in_map (fun x : col => fst (fst x))) in Cl. rewrite Er in Cl. cbn in Cl. intuition.
    - intros J. assert (Ik : In k (List.map (fun x : col => fst (fst x)) r)) by (rewrite Er; cbn; intuition). apply in_map_iff in Ik. destruct Ik as ([[k' fld] ss] & <- & I).
      exists fld, ss. apply Ck. exact I. }
  destruct (C74_text_partial lenient (fun _ => "syntax error") "" "" "" 30 disk_world its ["--num-threads"; "1"] (args_threads 1) false (repeat 0 90)
    config_default farm_text j farm_json farm out f' Dk Sp Cn Cm Sy disk_settled eq_refl Th Sj Fi farm_wrappers)
    with (path := "./g.graphql") (contents := barn_query) (d := disk_doc) (frags := [("PetName", disk_fragment)]) (P := "Query") (l := disk_sels)
         (active := active_of always) (custom := no_custom) (amb := disk_amb) as (text & M & G & node & rest & Et & R & Im & _ & _ & A).
  - intros n x _ W. cbn in W. subst x. split; [cbn; intuition discriminate|]. intros y L. apply last_in in L. destruct L as [J En]. cbn in J.
    repeat (destruct J as [<-|J]; [discriminate En|]). destruct J.
  - discriminate.
  - exact farm_exact.
  - exact H.
  - apply PropC35.pair_is_source. auto.
  - reflexivity.
  - apply C69_text. vm_compute. reflexivity.
  - exact disk_fragments.
  - reflexivity.
  - reflexivity.
  - apply reservedb_ok. reflexivity.
  - constructor.
  - exact farm_leaves.
  - exact disk_surroundings.
  - exact disk_tight.
  - exact disk_regular.
  - exact disk_labels.
  - exact disk_tagged.
  - intros x _. apply all_unconditional.
  - intros n fd _. apply Forall_forall. intros x _. apply all_unconditional.
  - exists out, f', text, M, G. split; [exact H|]. split; [exact Et|]. split; [exact R|]. split; [|split; [|split]].
    + apply A; [unfold good_response; tidied|]. exists 8, "Query". split; [apply possibles_ok; left; reflexivity|]. apply respb_ok. vm_compute. reflexivity.
    + intros n Al. assert (Rs : response farm_json farm [("PetName", disk_fragment)] (active_of always) no_custom "Query" disk_sels extra_response).
      { apply A; [unfold extra_response, good_response; cbn [app]; tidied|]. exists n. exact Al. }
      destruct Rs as (k & T & Po & Rs). destruct (proj1 (Rk k T Po _ "more" Rs)) as [E|E]; [cbn; auto|discriminate|discriminate].
    + intros n Al. assert (Rs : response farm_json farm [("PetName", disk_fragment)] (active_of always) no_custom "Query" disk_sels short_response).
      { apply A; [unfold short_response, good_response; tidied|]. exists n. exact Al. }
      destruct Rs as (k & T & Po & Rs). pose proof (proj2 (Rk k T Po _ "all" Rs) (or_intror eq_refl)) as E. cbn in E. intuition discriminate.
    + intros n Al. assert (Rs : response farm_json farm [("PetName", disk_fragment)] (active_of always) no_custom "Query" disk_sels wrong_response).
      { apply A; [unfold wrong_response, good_response; tidied|]. exists n. exact Al. }
      destruct Rs as (k & T & Po & Rs). apply possibles_ok in Po. destruct Po as [<-|[]].
      assert (C : exists r, cols farm [("PetName", disk_fragment)] always 9 "Query" disk_sels = Some r) by (destruct Cq as (r & C & _); eauto). destruct C as (r & C).
      destruct (response_says _ _ _ _ _ _ _ _ _ _ _ "all" _ C Rs (or_intror (or_introl eq_refl))) as (k' & fld & ss & -> & I & Hx). vm_compute in C. injection C as <-.
      assert (Ef : fld = "pets") by (cbn in I; destruct I as [I|[I|[]]]; congruence). subst fld.
      destruct Hx as [[E _]|(kind & g & D & Gv)]; [discriminate|].
      destruct (declared_fun _ _ _ _ _ "INTERFACE" (GNonNull (GList (GNonNull (GNamed "Pet")))) D) as [-> ->]; [apply find_declared; reflexivity|].
      destruct Gv as [_ E]. congruence.
Qed.

(** ** Refutations.  [permitted m name v]: whatever the names from elsewhere mean, as long as they mean at least what they should *)
Definition permitted (c : cconfig) (js : jschema) (m : tsfile) (name : string) (v : value) : Prop :=
  exists n, forall base, base_ok c js no_custom base -> base "any" VNull -> allows (tf_decls m) base n name v.
Ltac allowed_by d :=
  match goal with |- allows ?D ?base (S ?n) _ ?v =>
    apply (allows_here base D ltac:(repeat constructor; cbn; intuition discriminate) n d v); [cbn; tauto|] end.
Ltac only_keys := let kvs := fresh in let k := fresh in let x := fresh in let E := fresh in intros kvs k x E A; injection E as <-; cbn in A;
  repeat match type of A with (if ?b then _ else _) = _ => let B := fresh in destruct b eqn:B; [apply String.eqb_eq in B; subst; cbn; tauto|] end; discriminate A.

(** A dog that is a cat: both keys have the type ["Cat" | "Dog" | "Eel"] *)
Definition tag (al : string) : selection := SField (at_pos 2 9) (Some al) "__typename" [] [] [].
Definition tag_sels : list selection := [SelWorlds.node 2 "pet" [tag "a"; tag "b"]].
Definition tag_type : texpr := XUnion (XUnion (XLit "Cat") (XLit "Dog")) (XLit "Eel").
Definition tag_module : tsfile :=
  {| tf_node := "QueryDocumentNode"; tf_node_from := cc_docnode_module plain_config; tf_globals := [];
     tf_globals_from := cc_globals_module plain_config;
     tf_decls := [DObj "Q_pet" [prop "a" tag_type; prop "b" tag_type]; DObj "Q" [prop "pet" (XName "Q_pet")]];
     tf_args := ["Q"; "never"] |}.
Definition tag_value : value := VObj [("pet", VObj [("a", VStr "Dog"); ("b", VStr "Cat")])].
Theorem C74_tags_refuted : exists ws co,
  document_file 20 (farm_cx []) plain_config plain_order (query tag_sels) ws co /\
  reads_as co tag_module /\ valid_sels farm [] "Query" tag_sels /\ regular farm [] "Query" (fun x => In x tag_sels) /\
  introspection farm_json farm /\ implements_exactly farm_json farm /\ tidy tag_value /\
  permitted plain_config farm_json tag_module "Q" tag_value /\
  ~ response farm_json farm [] (active_of always) no_custom "Query" tag_sels tag_value.
Proof.
  do 2 eexists. split; [eexists; split; vm_compute; reflexivity|]. split; [apply (reads_by 2000); vm_compute; reflexivity|].
  split; [apply (validb_ok farm [] 9); vm_compute; reflexivity|].
  split; [apply (regularb_ok farm [] 12 "Query" tag_sels); [vm_compute; reflexivity|tauto]|]. split; [exact farm_intro|]. split; [exact farm_exact|].
  split; [unfold tag_value; tidied|]. split.
  - exists 3. intros base B _.
    allowed_by (DObj "Q" [prop "pet" (XName "Q_pet")]). split; [|only_keys]. eexists. split; [reflexivity|]. constructor; [|constructor].
    change (allows (tf_decls tag_module) base 2 "Q_pet" (VObj [("a", VStr "Dog"); ("b", VStr "Cat")])).
    allowed_by (DObj "Q_pet" [prop "a" tag_type; prop "b" tag_type]). split; [|only_keys]. eexists. split; [reflexivity|].
    constructor; [left; right; reflexivity|constructor; [left; left; reflexivity|constructor]].
  - intros (n & T & Po & Rs). apply possibles_ok in Po. destruct Po as [<-|[]].
    assert (C : exists r, cols farm [] always 9 "Query" tag_sels = Some r) by (eexists; vm_compute; reflexivity). destruct C as (r & C).
    destruct (response_says _ _ _ _ _ _ _ _ _ _ _ "pet" _ C Rs (or_introl eq_refl)) as (k' & fld & ss & -> & I & Hx). vm_compute in C. injection C as <-.
    destruct I as [I|[]]. injection I as <- <-. destruct Hx as [[E _]|(kind & g & D & Gv)]; [discriminate|].
    destruct (declared_fun _ _ _ _ _ "INTERFACE" (GNonNull (GNamed "Pet")) D) as [-> ->]; [apply find_declared; reflexivity|].
    destruct Gv as [[E|[Lv|(T' & Po' & Rs')]] _]; [discriminate| |].
    { destruct Lv as (jj & L & Hk). apply lastb_ok in L. vm_compute in L. injection L as <-. cbn in Hk. destruct Hk as [[E _]|[E _]]; discriminate. }
    assert (C : cols farm [] always 9 T' (merged_subs [("pet", "pet", [tag "a"; tag "b"])] "pet") = Some [("a", "__typename", []); ("b", "__typename", [])]) by reflexivity.
    destruct (response_says _ _ _ _ _ _ _ _ _ _ _ "a" _ C Rs' (or_introl eq_refl)) as (q & fa & sa & _ & Ia & Ha).
    destruct (response_says _ _ _ _ _ _ _ _ _ _ _ "b" _ C Rs' (or_intror (or_introl eq_refl))) as (q' & fb & sb & _ & Ib & Hb).
    destruct Ia as [E|[E|[]]]; [injection E as <- <-|discriminate E]. destruct Ib as [E|[E|[]]]; [discriminate E|injection E as <- <-].
    destruct Ha as [[_ Ea]|(kind & g & Dd & _)]; [|exact (typename_undeclared _ _ farm_intro _ _ _ Dd)].
    destruct Hb as [[_ Eb]|(kind & g & Dd & _)]; [|exact (typename_undeclared _ _ farm_intro _ _ _ Dd)]. congruence.
Qed.
Print Assumptions C74_tags_refuted.

(** The name of a pet may be null, that of a dog may not, and all pets are dogs; [any] stands for [Date!] and allows null *)
Definition inn_json : jschema :=
  [object_type "Query" [plain_field "pet" (Worlds.nonnull (named_type "INTERFACE" "Pet")); plain_field "now" (Worlds.nonnull (named_type "SCALAR" "Date"))];
   abstract_type "INTERFACE" "Pet" ["Dog"] (Some [plain_field "name" sstring]);
   object_type "Dog" [plain_field "name" (Worlds.nonnull sstring)];
   scalar_type "String"; scalar_type "Date"].
Definition inn : schema := Eval vm_compute in match load_schema inn_json with Ok s => s | Err _ => [] end.
Lemma inn_loaded : load_schema inn_json = Ok inn.
Proof. vm_compute. reflexivity. Qed.
Lemma inn_intro : introspection inn_json inn.
Proof. apply (introb_ok inn_json inn true inn_loaded). vm_compute. reflexivity. Qed.
Definition inn_cx : ctx := {| cx_schema := inn; cx_deprecations := false; cx_frags := []; cx_order := plain_order |}.
Definition cov_sels : list selection := [SelWorlds.node 2 "pet" [SelWorlds.leaf 3 "name"]].
Definition cov_module : tsfile :=
  {| tf_node := "QueryDocumentNode"; tf_node_from := cc_docnode_module plain_config; tf_globals := [];
     tf_globals_from := cc_globals_module plain_config;
     tf_decls := [DObj "Q_pet" [prop "name" (XUnion (XName "string") XNull)]; DObj "Q" [prop "pet" (XName "Q_pet")]];
     tf_args := ["Q"; "never"] |}.
Definition cov_value : value := VObj [("pet", VObj [("name", VNull)])].
Theorem C74_covariant_refuted : exists ws co,
  document_file 20 inn_cx plain_config plain_order (query cov_sels) ws co /\
  reads_as co cov_module /\ valid_sels inn [] "Query" cov_sels /\ regular inn [] "Query" (fun x => In x cov_sels) /\
  introspection inn_json inn /\ tagged_once inn [] "Query" (fun x => In x cov_sels) /\ tidy cov_value /\
  permitted plain_config inn_json cov_module "Q" cov_value /\
  ~ response inn_json inn [] (active_of always) no_custom "Query" cov_sels cov_value.
Proof.
  assert (R : regular inn [] "Query" (fun x => In x cov_sels)) by (apply (regularb_ok inn [] 12 "Query" cov_sels); [vm_compute; reflexivity|tauto]).
  do 2 eexists. split; [eexists; split; vm_compute; reflexivity|]. split; [apply (reads_by 2000); vm_compute; reflexivity|].
  split; [apply (validb_ok inn [] 9); vm_compute; reflexivity|]. split; [exact R|]. split; [exact inn_intro|].
  split; [apply plain_tagged; [discriminate|exact R|intros x I; apply plain_tagsb_ok; revert x I; apply Forall_forall; repeat constructor]|].
  split; [unfold cov_value; tidied|]. split.
  - exists 3. intros base B _.
    allowed_by (DObj "Q" [prop "pet" (XName "Q_pet")]). split; [|only_keys]. eexists. split; [reflexivity|]. constructor; [|constructor].
    change (allows (tf_decls cov_module) base 2 "Q_pet" (VObj [("name", VNull)])).
    allowed_by (DObj "Q_pet" [prop "name" (XUnion (XName "string") XNull)]). split; [|only_keys]. eexists. split; [reflexivity|]. constructor; [right; reflexivity|constructor].
  - intros (n & T & Po & Rs). apply possibles_ok in Po. destruct Po as [<-|[]].
    assert (C : exists r, cols inn [] always 9 "Query" cov_sels = Some r) by (eexists; vm_compute; reflexivity). destruct C as (r & C).
    destruct (response_says _ _ _ _ _ _ _ _ _ _ _ "pet" _ C Rs (or_introl eq_refl)) as (k' & fld & ss & -> & I & Hx). vm_compute in C. injection C as <-.
    destruct I as [I|[]]. injection I as <- <-. destruct Hx as [[E _]|(kind & g & D & Gv)]; [discriminate|].
    destruct (declared_fun _ _ _ _ _ "INTERFACE" (GNonNull (GNamed "Pet")) D) as [-> ->]; [apply find_declared; reflexivity|].
    destruct Gv as [[E|[Lv|(T' & Po' & Rs')]] _]; [discriminate| |].
    { destruct Lv as (jj & L & Hk). apply lastb_ok in L. vm_compute in L. injection L as <-. cbn in Hk. destruct Hk as [[E _]|[E _]]; discriminate. }
    apply possibles_ok in Po'. destruct Po' as [<-|[]].
    assert (C : cols inn [] always 9 "Dog" (merged_subs [("pet", "pet", [SelWorlds.leaf 3 "name"])] "pet") = Some [("name", "name", [])]) by reflexivity.
    destruct (response_says _ _ _ _ _ _ _ _ _ _ _ "name" _ C Rs' (or_introl eq_refl)) as (q & fa & sa & _ & Ia & Ha).
    destruct Ia as [E|[]]. injection E as <- <-. destruct Ha as [[E _]|(kind & g & Dd & Gv)]; [discriminate|].
    destruct (declared_fun _ _ _ _ _ "SCALAR" (GNonNull (GNamed "String")) Dd) as [-> ->]; [apply find_declared; reflexivity|].
    destruct Gv as [_ E]. congruence.
Qed.
Print Assumptions C74_covariant_refuted.
Definition any_sels : list selection := [SelWorlds.leaf 2 "now"].
Definition any_module : tsfile :=
  {| tf_node := "QueryDocumentNode"; tf_node_from := cc_docnode_module plain_config; tf_globals := [];
     tf_globals_from := cc_globals_module plain_config;
     tf_decls := [DObj "Q" [prop "now" (XName "any")]]; tf_args := ["Q"; "never"] |}.
Definition any_value : value := VObj [("now", VNull)].
Theorem C74_any_refuted : exists ws co,
  document_file 20 inn_cx plain_config plain_order (query any_sels) ws co /\
  reads_as co any_module /\ valid_sels inn [] "Query" any_sels /\ regular inn [] "Query" (fun x => In x any_sels) /\
  introspection inn_json inn /\ tagged_once inn [] "Query" (fun x => In x any_sels) /\ tidy any_value /\
  permitted plain_config inn_json any_module "Q" any_value /\
  forall custom, ~ response inn_json inn [] (active_of always) custom "Query" any_sels any_value.
Proof.
  assert (R : regular inn [] "Query" (fun x => In x any_sels)) by (apply (regularb_ok inn [] 12 "Query" any_sels); [vm_compute; reflexivity|tauto]).
  do 2 eexists. split; [eexists; split; vm_compute; reflexivity|]. split; [apply (reads_by 2000); vm_compute; reflexivity|].
  split; [apply (validb_ok inn [] 9); vm_compute; reflexivity|]. split; [exact R|]. split; [exact inn_intro|].
  split; [apply plain_tagged; [discriminate|exact R|intros x I; apply plain_tagsb_ok; revert x I; apply Forall_forall; repeat constructor]|].
  split; [unfold any_value; tidied|]. split.
  - exists 3. intros base B Ba.
    allowed_by (DObj "Q" [prop "now" (XName "any")]). split; [|only_keys]. eexists. split; [reflexivity|]. constructor; [|constructor].
    change (allows (tf_decls any_module) base 2 "any" VNull). apply allows_free; [|exact Ba]. intros d [<-|[]]. discriminate.
  - intros custom (n & T & Po & Rs). apply possibles_ok in Po. destruct Po as [<-|[]].
    assert (C : exists r, cols inn [] always 9 "Query" any_sels = Some r) by (eexists; vm_compute; reflexivity). destruct C as (r & C).
    destruct (response_says _ _ _ _ _ _ _ _ _ _ _ "now" _ C Rs (or_introl eq_refl)) as (k' & fld & ss & -> & I & Hx). vm_compute in C. injection C as <-.
    destruct I as [I|[]]. injection I as <- <-. destruct Hx as [[E _]|(kind & g & D & Gv)]; [discriminate|].
    destruct (declared_fun _ _ _ _ _ "SCALAR" (GNonNull (GNamed "Date")) D) as [-> ->]; [apply find_declared; reflexivity|].
    destruct Gv as [_ E]. congruence.
Qed.
Print Assumptions C74_any_refuted.

(** ** With scalars that are never null these are the responses *)
Theorem C74_wide_is : forall js s frags active custom si P l v,
  (forall b sc y, (exists j, last_named jt_name b js j /\ jt_kind j = "SCALAR") -> scalar_is b sc ->
     (si sc y <-> SpecResp.scalar_value custom sc y) /\ (SpecResp.scalar_value custom sc y -> y <> VNull)) ->
  (wide_response js s frags active si P l v <-> response js s frags active custom P l v).
Proof.
  intros js s frags active custom si P l v H.
  assert (Lf : forall b y, (wide_leaf js si b y <-> leaf_value js custom b y) /\ (leaf_value js custom b y -> y <> VNull)).
  { intros b y. split.
    - split; intros (j & L & [K|(K & sc & Si & X)]); exists j; (split; [exact L|]); auto; right; (split; [exact K|]); exists sc; (split; [exact Si|]);
        apply (H b sc y (ex_intro _ j (conj L K)) Si); exact X.
    - intros (j & L & [(K & vs & e & _ & _ & ->)|(K & sc & Si & X)]); [discriminate|]. exact (proj2 (H b sc y (ex_intro _ j (conj L K)) Si) X). }
  assert (Ob : forall n T M y, (wide_object js s frags active si n T M y <-> object_response js s frags active custom n T M y) /\
            (object_response js s frags active custom n T M y -> y <> VNull)).
  { induction n as [|n IH]; intros T M y; [split; [tauto|intros []]|]. cbn [wide_object object_response]. split; [|intros (kvs & -> & _); discriminate].
    assert (G : forall k g x, wide_values (fun y => wide_leaf js si (gbase g) y \/ exists T', possible s (gbase g) T' /\
                  wide_object js s frags active si n T' (fun z => exists fld' ss', collects s frags active T M k fld' ss' /\ In z ss') y) g x <->
               gvalues (fun b y => leaf_value js custom b y \/ exists T', possible s b T' /\
                  object_response js s frags active custom n T' (fun z => exists fld' ss', collects s frags active T M k fld' ss' /\ In z ss') y) g x).
    { intros k g x. rewrite wide_gvalues.
      - split; apply gvalues_mono; intros y' Y; cbn beta in *;
          (destruct Y as [Y|(T' & Po & Y)]; [left; apply Lf; exact Y|right; exists T'; split; [exact Po|]; apply IH; exact Y]).
      - intros [Y|(T' & _ & Y)]; [apply Lf in Y; apply Lf in Y|apply IH in Y; apply IH in Y]; congruence. }
    split; intros (kvs & -> & K & F); exists kvs; (split; [reflexivity|]); (split; [exact K|]); intros k x J;
      destruct (F k x J) as (fld & ss & C & [E|(kind & g & D & X)]); exists fld, ss; (split; [exact C|]); auto; right; exists kind, g; (split; [exact D|]); apply G; exact X. }
  split; intros (n & T & Po & R); exists n, T; (split; [exact Po|]); apply Ob; exact R.
Qed.
Print Assumptions C74_wide_is.

(** ** Non-vacuity: a scalar that is written as any.  Null is allowed for it, a missing key is not *)
Definition stamp_json : jschema :=
  [object_type "Query" [plain_field "now" (Worlds.nonnull (named_type "SCALAR" "Date"))]; scalar_type "Date"].
Definition stamp : schema := Eval vm_compute in match load_schema stamp_json with Ok s => s | Err _ => [] end.
Lemma stamp_intro : introspection stamp_json stamp.
Proof. apply (introb_ok stamp_json stamp true); vm_compute; reflexivity. Qed.
Example C74_wide_nonvacuous : exists ws co,
  document_file 20 {| cx_schema := stamp; cx_deprecations := false; cx_frags := []; cx_order := plain_order |} plain_config plain_order (query any_sels) ws co /\
  reads_as co any_module /\ implements_exactly stamp_json stamp /\ regular stamp [] "Query" (fun x => In x any_sels) /\
  tagged_once stamp [] "Query" (fun x => In x any_sels) /\ base_means plain_config stamp_json (fun _ _ => True) (fun _ _ => True) /\
  wide_response stamp_json stamp [] (active_of always) (fun _ _ => True) "Query" any_sels any_value /\
  ~ wide_response stamp_json stamp [] (active_of always) (fun _ _ => True) "Query" any_sels (VObj []).
Proof.
  assert (R : regular stamp [] "Query" (fun x => In x any_sels)) by (apply (regularb_ok stamp [] 12 "Query" any_sels); [vm_compute; reflexivity|tauto]).
  assert (C : forall k fld ss, collects stamp [] (active_of always) "Query" (fun x => In x any_sels) k fld ss <-> k = "now" /\ fld = "now" /\ ss = []).
  { intros k fld ss. assert (E : cols stamp [] always 9 "Query" any_sels = Some [("now", "now", [])]) by reflexivity.
    rewrite (cols_ok stamp _ always no_custom 9 "Query" any_sels _ E k fld ss). cbn. intuition congruence. }
  do 2 eexists. split; [eexists; split; vm_compute; reflexivity|]. split; [apply (reads_by 2000); vm_compute; reflexivity|].
  split; [apply (exactb_ok stamp_json stamp true); vm_compute; reflexivity|]. split; [exact R|].
  split; [apply plain_tagged; [discriminate|exact R|intros x I; apply plain_tagsb_ok; revert x I; apply Forall_forall; repeat constructor]|].
  split.
  { constructor; [tauto|]. intros b j v L K. exfalso. apply last_in in L. destruct L as [J _]. cbn in J. destruct J as [<-|[<-|[]]]; discriminate K. }
  split.
  - exists 1, "Query". split; [apply possibles_ok; left; reflexivity|]. exists [("now", VNull)]. split; [reflexivity|]. split.
    + intros k. cbn. split; [intros [<-|[]]; exists "now", []; apply C; auto|]. intros (fld & ss & X). apply C in X. destruct X as (-> & _). auto.
    + intros k x [E|[]]. injection E as <- <-. exists "now", []. split; [apply C; auto|]. right. exists "SCALAR", (GNonNull (GNamed "Date")).
      split; [apply find_declared; reflexivity|]. left. exists (scalar_type "Date"). split; [apply lastb_ok; reflexivity|]. right. split; [reflexivity|].
      exists (ScCustom "Date"). split; [|exact Logic.I]. constructor. cbn. intuition discriminate.
  - intros (n & T & Po & Rs). apply possibles_ok in Po. destruct Po as [<-|[]]. destruct n as [|n]; [exact Rs|]. destruct Rs as (kvs & E & K & _). injection E as <-.
    apply (proj2 (K "now")). exists "now", []. apply C. auto.
Qed.
