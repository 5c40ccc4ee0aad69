(** C81: additions to the schema leave the outputs as they are. *)
From Verif Require Import GrowFacts Rewrite PropC18 PropC48 PropC79 PropC80 ProjectFacts EndFacts.
From Verif Require Import PropC69 PropC72 GrowWorlds.
From Verif Require PropC49.

(** New types, new fields of objects and interfaces, and other documentation of types that are not enums: in the introspection
    results and in the schema *)
Theorem C81_loaded : forall js js' s s', added js js' -> load_schema js = Ok s -> load_schema js' = Ok s' -> grown s s'.
Proof. exact added_grown. Qed.
Print Assumptions C81_loaded.

(** The module of a document: the same text and the same names of the globals file, for any order of the maps *)
Theorem C81_module : forall n cx cx' c o o' d ws co P l,
  grown (cx_schema cx) (cx_schema cx') -> consistent (cx_schema cx) -> consistent (cx_schema cx') -> cx_frags cx' = cx_frags cx ->
  order_ok (cx_order cx) -> order_ok (cx_order cx') -> order_ok o -> order_ok o' ->
  document_file n cx c o d ws co -> doc_root d = Some (P, l) -> is_subscription d = false ->
  frags_valid (cx_schema cx) (cx_frags cx) l -> Rewrite.settled (cx_schema cx) (cx_frags cx) P (fun x => In x l) ->
  (exists m, forall n', m <= n' -> exists ws', document_file n' cx' c o' d ws' co) /\
  (forall n' ws' r', compile_definition n' cx' d = Some (ws', r') ->
     exists op', r' = Ok op' /\ compile_ir c o' (cx_schema cx') op' = Ok co).
Proof.
  intros n cx cx' c o o' d ws co P l Gr Co Co' Fe O O' Oo Oo' (op & Hd & Hi) Dr Su Fv St.
  destruct (document_collected _ _ _ _ _ _ _ O Co Hd Dr Su Fv) as [V K].
  pose proof (compile_result cx O Co _ _ _ _ Hd) as R. inversion R as [| | | |P0 p l0 ws0 op0 Rt C X Ev Sh En Ek]; subst.
  pose proof (code_root_doc d Su) as E. rewrite Rt, Dr in E. cbn in E. injection E as -> ->.
  pose proof (proj2 (valid_grown _ _ (cx_frags cx) Gr Co' Co) _ _ V) as V'. rewrite <- Fe in V'.
  assert (C' : composite (cx_schema cx') P) by (eapply composite_grown; eauto).
  assert (Ev' : try_build_variable_ir (cx_schema cx') (doc_vars d) = Ok (op_variables op)) by (eapply variables_grown; eauto).
  pose proof (proj1 (proj2 (coll_grown _ _ (cx_frags cx) Gr Co)) _ _ _ K C (sels_each _ _ _ _ V) _ (fun x => iff_refl _)) as K1.
  pose proof (settled_grown _ _ (cx_frags cx) Gr Co' Co _ _ St C (sels_each _ _ _ _ V) _ (fun x => iff_refl _)) as St'. rewrite <- Fe in K1, St'.
  destruct (valid_operation cx' d P l O' Co' Dr Su C' V' _ Ev') as [m Hm].
  assert (Same : forall n' ws' op', compile_definition n' cx' d = Some (ws', Ok op') -> op' = op).
  { intros n' ws' op' H'. pose proof (compile_result cx' O' Co' _ _ _ _ H') as R'. inversion R' as [| | | |P1 p1 l1 ws1 op1 Rt1 C1 X1 Ev1 Sh1 En1 Ek1]; subst.
    destruct (document_collected _ _ _ _ _ _ _ O' Co' H' Dr Su (proj2 (valid_frags _ _) _ _ V')) as [_ K'].
    pose proof (coll_det (cx_schema cx') (cx_frags cx') Co' same_data (fun _ _ H => H) _ _ _ (alike_same _ _ _ _ _ (alike_refl _ _ _ _ St')) St' _ _ K1 K') as Ec.
    rewrite Ev' in Ev1. injection Ev1 as Ev1. destruct op, op'. cbn in *. congruence. }
  assert (Hi' : compile_ir c o' (cx_schema cx') op = Ok co).
  { rewrite (compile_ir_eq c o Oo), <- (compile_ir_eq c o' Oo') in Hi. eapply ir_grown; eauto. }
  split.
  - exists m. intros n' L. destruct (Hm n' L) as (ws' & op' & H'). rewrite (Same _ _ _ H') in H'. exists ws', op. auto.
  - intros n' ws' r' H'. destruct (Hm (Nat.max m n') (Nat.le_max_l _ _)) as (ws2 & op2 & H2).
    rewrite (compile_definition_mono _ _ _ _ _ (Nat.le_max_r m n') H') in H2. injection H2 as -> ->.
    exists op2. split; auto. rewrite (Same _ _ _ H'). auto.
Qed.
Print Assumptions C81_module.

(** *** Whole projects *)
(** The fields an object type has under one response key agree in type, documentation and deprecation *)
Definition settled_source (e : env) (f : fs) (c : cconfig) (s : schema) (path : string) : Prop :=
  exists contents d P l frags, valid_at e f c s path contents d P l frags /\ Rewrite.settled s frags P (fun x => In x l).

Lemma file_same e f c s s' path k k' ms ms' co co' :
  grown s s' -> consistent s -> consistent s' -> (forall p, order_ok (env_order e p)) -> paths_agree e f ->
  settled_source e f c s path ->
  file_compiles k e f c s path ms co -> file_compiles k' e f c s' path ms' co' -> co = co'.
Proof.
  intros Gr Co Co' Ho Ag (contents & d & P & l & frags & V & St)
    (contents1 & d1 & im & ms0 & frags1 & ms1 & ws & op & E1 & E2 & E3 & E4 & E5 & E6 & _)
    (contents2 & d2 & im2 & ms2 & frags2 & ms3 & ws2 & op2 & F1 & F2 & F3 & F4 & F5 & F6 & _).
  rewrite E1 in F1. injection F1 as <-. rewrite E2 in F2. injection F2 as <-.
  pose proof (va_read _ _ _ _ _ _ _ _ _ _ V) as R. rewrite E1 in R. injection R as ->.
  pose proof (proj1 (parse_one _ _ _ _) E2) as Pa. rewrite (va_parse _ _ _ _ _ _ _ _ _ _ V) in Pa. injection Pa as <-.
  assert (X : Done (im, ms0) = Done (im2, ms2)).
  { rewrite <- (EndFacts.add_imports_mono e f c k (Nat.max k k') path contents [] [] (Nat.le_max_l _ _)) in E3 by (rewrite E3; discriminate).
    rewrite <- (EndFacts.add_imports_mono e f c k' (Nat.max k k') path contents [] [] (Nat.le_max_r _ _)) in F3 by (rewrite F3; discriminate). congruence. }
  injection X as <- <-. rewrite E4 in F4. injection F4 as <- <-.
  pose proof (foreign_is k e f c path contents im ms0 frags1 ms1 frags (Ho path) Ag E3 E4 (va_brought _ _ _ _ _ _ _ _ _ _ V)) as Ext.
  assert (Vs : valid_sels s frags1 P l) by (apply (valid_ext s frags frags1 (fun n => eq_sym (Ext n))); exact (va_sels _ _ _ _ _ _ _ _ _ _ V)).
  destruct (C81_module k (file_ctx e c s path frags1) (file_ctx e c s' path frags1) c (suborder (env_order e path) [2; 0]) (suborder (env_order e path) [2; 0]) d ws co P l) as [_ Y];
    auto; try (intros q A y; apply Ho).
  - exists op. auto.
  - exact (va_root _ _ _ _ _ _ _ _ _ _ V).
  - exact (va_query _ _ _ _ _ _ _ _ _ _ V).
  - exact (proj2 (valid_frags s frags1) P l Vs).
  - exact (settled_ext s frags frags1 (fun n => eq_sym (Ext n)) P _ St _ (fun x => iff_refl _)).
  - destruct (Y _ _ _ F5) as (op' & Eo & Ei). injection Eo as <-. cbn [file_ctx cx_schema] in Ei. congruence.
Qed.

(** The same project with another schema file *)
Definition with_schema (wo : world) (r : string -> schema_read) : world :=
  {| wo_env := wo_env wo; wo_listing := wo_listing wo; wo_ncpus := wo_ncpus wo; wo_config := wo_config wo; wo_schema := r; wo_fs := wo_fs wo |}.

Section Project.
Variables (wo : world) (a : cli_args) (cf : config_file) (read' : string -> schema_read) (s s' : schema).
Let rc := merge_config (wo_ncpus wo) a cf.
Let c := cconfig_of rc.
Let e := wo_env wo.
Let ls := wo_listing wo.
Let root := rc_root_dir rc.
Let f := wo_fs wo.
Let wo' := with_schema wo read'.
Hypothesis Lc : load_config (ca_config_file a) (wo_config wo) = Ok cf.
Hypothesis Ls : parse_schema (rc_schema_path rc) (wo_schema wo (rc_schema_path rc)) = Ok s.
Hypothesis Ls' : parse_schema (rc_schema_path rc) (read' (rc_schema_path rc)) = Ok s'.
Hypothesis gr : grown s s'.
(** The schemas *)
Hypothesis co : consistent s.
Hypothesis co' : consistent s'.
Hypothesis ci : inputs_consistent s.
Hypothesis ci' : inputs_consistent s'.
Hypothesis inh : inhabited_types s'.
Hypothesis proper : proper_types s'.
(** The surroundings *)
Hypothesis names : names_ok ls.
Hypothesis sep : separate e ls c root f.
Hypothesis apart : forall path, is_source ls root path -> out_loc e path <> env_locate e (globals_path c root).
Hypothesis orders : forall p, order_ok (env_order e p).
Hypothesis agree : paths_agree e f.
Hypothesis types : types_parse e.
Hypothesis fin : finite (dir_kids ls) (WDir root).
Hypothesis writable : env_write e (globals_path c root) = WOk.
(** The project *)
Hypothesis valid : valid_project e ls f c s root.

(** The project is valid with the second schema too; so its runs end, with exit code 0 *)
Theorem C81_accepts : valid_project e ls f c s' root /\
  exists N, forall k, N <= k -> forall sched,
    (qlc k wo' a sched = Running \/ exists out f', qlc k wo' a sched = Exited 0 out f') /\
    exists more out f', qlc k wo' a (sched ++ more) = Exited 0 out f'.
Proof.
  assert (V : valid_project e ls f c s' root) by (exact (valid_project_grown s s' gr co co' ci e ls f c root valid)). split; auto.
  exact (C79_accepts wo' a cf s' Lc Ls' names sep orders agree co' ci' inh proper types fin V writable).
Qed.

Hypothesis threads : threads_ok (rc_number_threads rc) ls root.
Hypothesis settled : forall path, is_source ls root path -> settled_source e f c s path.

(** Every file is left the same by both *)
Theorem C81_outputs : forall fuel fuel' sched sched' out out' f' g',
  qlc fuel wo a sched = Exited 0 out f' -> qlc fuel' wo' a sched' = Exited 0 out' g' -> forall l, f' l = g' l.
Proof.
  intros fuel fuel' sched sched' out out' f' g' H H'.
  assert (A : forall k w sch s0 o h, (w = wo /\ s0 = s \/ w = wo' /\ s0 = s') -> qlc k w a sch = Exited 0 o h ->
    (forall path, is_source ls root path -> exists ms q, file_compiles k e f c s0 path ms q /\
       (forall m, In m ms -> ms_level m = CompileWarning) /\ h (out_loc e path) = Ok (co_contents q)) /\
    ((exists n, PropC49.uses_global k e ls c s0 root f n) ->
       exists text l ds, h (env_locate e (globals_path c root)) = Ok text /\ NoDup (List.map fst l) /\ sorted_by fst l /\
         (forall n t, In (n, t) l <-> (exists r, PropC49.uses_global k e ls c s0 root f r /\ SpecGlobal.leads s0 r n) /\ get_type s0 n = Some t) /\
         Forall2 (fun x d => def_text c (fst x) (snd x) d) l ds /\ text = header +++ join (nl +++ nl) ds /\
         forall n, PropC49.uses_global k e ls c s0 root f n -> global_type s0 n) /\
    (forall l, (forall path, is_source ls root path -> l <> out_loc e path) ->
       (l <> env_locate e (globals_path c root) \/ forall n, ~ PropC49.uses_global k e ls c s0 root f n) -> h l = f l)).
  { intros k w sch s0 o h [[-> ->]|[-> ->]] X; destruct threads as [One|[Pos Fl]].
    - exact (PropC49.C49_end_to_end k wo a sch cf s o h Lc Ls names sep apart orders ci One X).
    - exact (PropC49.C49_flat k wo a sch cf s o h Lc Ls names sep apart orders ci Pos Fl X).
    - exact (PropC49.C49_end_to_end k wo' a sch cf s' o h Lc Ls' names sep apart orders ci' One X).
    - exact (PropC49.C49_flat k wo' a sch cf s' o h Lc Ls' names sep apart orders ci' Pos Fl X). }
  destruct (A _ _ _ _ _ _ (or_introl (conj eq_refl eq_refl)) H) as (O1 & G1 & U1).
  destruct (A _ _ _ _ _ _ (or_intror (conj eq_refl eq_refl)) H') as (O2 & G2 & U2).
  assert (Same : forall path ms q ms' q', is_source ls root path -> file_compiles fuel e f c s path ms q -> file_compiles fuel' e f c s' path ms' q' -> q = q').
  { intros path ms q ms' q' Sp F1 F2. eapply file_same; eauto. }
  assert (Us : forall n, PropC49.uses_global fuel e ls c s root f n <-> PropC49.uses_global fuel' e ls c s' root f n).
  { intros n. split; intros (path & ms & q & Sp & Fc & I).
    - destruct (O2 path Sp) as (ms' & q' & Fc' & _). exists path, ms', q'. pose proof (Same _ _ _ _ _ Sp Fc Fc'). subst q'. auto.
    - destruct (O1 path Sp) as (ms' & q' & Fc' & _). exists path, ms', q'. pose proof (Same _ _ _ _ _ Sp Fc' Fc). subst q'. auto. }
  destruct (finite_list _ _ fin) as (all & Hall).
  assert (Dec : (exists n, PropC49.uses_global fuel e ls c s root f n) \/ forall n, ~ PropC49.uses_global fuel e ls c s root f n).
  { assert (X : forall xs, (forall y, In y xs -> In y all) -> (exists n, PropC49.uses_global fuel e ls c s root f n) \/
      forall path ms q n, In (WFile path) xs -> file_compiles fuel e f c s path ms q -> ~ In n (co_globals q)).
    { induction xs as [|x xs IH]; intros Sub; [right; intros path ms q n []|]. destruct IH as [U|N]; [intros y I; apply Sub; right; exact I|left; exact U|].
      destruct x as [path|d]; [|right; intros p ms q n [E|I]; [discriminate E|eauto]].
      assert (Sp : is_source ls root path) by (apply Hall, Sub; left; reflexivity).
      destruct (O1 path Sp) as (ms & q & Fc & _). destruct (co_globals q) as [|n gs] eqn:Eg.
      - right. intros p ms' q' n [E|I] Fc' J; [|exact (N _ _ _ _ I Fc' J)]. injection E as <-. destruct (O2 path Sp) as (ms2 & q2 & F2 & _).
        rewrite (Same _ _ _ _ _ Sp Fc' F2), <- (Same _ _ _ _ _ Sp Fc F2), Eg in J. exact J.
      - left. exists n, path, ms, q. rewrite Eg. split; [exact Sp|split; [exact Fc|left; reflexivity]]. }
    destruct (X all (fun y I => I)) as [U|N]; auto. right. intros n (path & ms & q & Sp & Fc & I). exact (N path ms q n (proj2 (Hall _) Sp) Fc I). }
  intros l. destruct (in_dec string_dec l (flat_map (fun x => match x with WFile p => [out_loc e p] | _ => [] end) all)) as [I|No].
  - apply in_flat_map in I. destruct I as ([path|d] & Ix & I); [|destruct I]. destruct I as [<-|[]].
    assert (Sp : is_source ls root path) by (apply Hall; exact Ix).
    destruct (O1 path Sp) as (ms & q & F1 & _ & E1). destruct (O2 path Sp) as (ms' & q' & F2 & _ & E2). rewrite E1, E2, (Same _ _ _ _ _ Sp F1 F2). reflexivity.
  - assert (Nl : forall path, is_source ls root path -> l <> out_loc e path).
    { intros path Sp ->. apply No, in_flat_map. exists (WFile path). split; [apply Hall; exact Sp|left; reflexivity]. }
    destruct (string_dec l (env_locate e (globals_path c root))) as [->|Ng]; [|rewrite (U1 l Nl (or_introl Ng)), (U2 l Nl (or_introl Ng)); reflexivity].
    destruct Dec as [U|Nu].
    + destruct (G1 U) as (text & l1 & ds & E1 & N1 & S1 & K1 & T1 & -> & Gt). destruct U as (n & U). destruct (G2 (ex_intro _ n (proj1 (Us n) U))) as (text2 & l2 & ds2 & E2 & N2 & S2 & K2 & T2 & -> & _).
      rewrite E1, E2. rewrite (file_grown s s' gr ci c _ _ l1 l2 ds ds2 Us Gt N1 S1 K1 N2 S2 K2 T1 T2). reflexivity.
    + rewrite (U1 _ Nl (or_intror Nu)), (U2 _ Nl (or_intror (fun n X => Nu n (proj2 (Us n) X)))). reflexivity.
Qed.
End Project.
Print Assumptions C81_accepts.
Print Assumptions C81_outputs.

(** ** Non-vacuity: the project of C72 and a schema with one type more, and with more fields *)
Lemma bigger_inhabited : inhabited_types bigger.
Proof.
  intros P n f (t & Gt & F) C. apply aget_In in Gt.
  assert (X : forallb (fun x : string * stype => match st_def (snd x) with
     | TObject fs | TInterface _ fs _ | TUnion _ _ fs => forallb (fun y : string * sfield => negb (compositeb bigger (ft_name (sf_type (snd y)))) || negb (match possibles bigger (ft_name (sf_type (snd y))) with [] => true | _ => false end)) fs
     | _ => true end) bigger = true) by (vm_compute; reflexivity).
  rewrite forallb_forall in X. specialize (X _ Gt). cbn [snd] in X.
  assert (Y : negb (compositeb bigger (ft_name (sf_type f))) || negb (match possibles bigger (ft_name (sf_type f)) with [] => true | _ => false end) = true).
  { destruct (st_def t); try contradiction; rewrite forallb_forall in X; apply aget_In in F; exact (X _ F). }
  apply compositeb_ok in C. rewrite C in Y. cbn [negb orb] in Y. destruct (possibles bigger (ft_name (sf_type f))) as [|T l] eqn:E; [discriminate Y|].
  exists T. apply possibles_ok. rewrite E. left. reflexivity.
Qed.
Lemma bigger_inputs : inputs_consistent bigger.
Proof.
  intros n t nm fs Gt Ed. exfalso. apply aget_In in Gt.
  assert (X : Forall (fun x : string * stype => match st_def (snd x) with TInputObject _ _ => False | _ => True end) bigger) by (vm_compute; repeat constructor).
  rewrite Forall_forall in X. specialize (X _ Gt). cbn [snd] in X. rewrite Ed in X. exact X.
Qed.
Lemma bigger_grown : grown farm bigger.
Proof. exact (C81_loaded farm_json bigger_json farm bigger bigger_added farm_loaded bigger_loaded). Qed.
Lemma disk_settled_source path : is_source PropC35.pair_listing "." path -> settled_source text_env disk_files plain_config farm path.
Proof.
  intros Sp. destruct (disk_valid_at path Sp) as [[_ V]|[_ V]]; do 5 eexists; (split; [exact V|]);
    (apply regular_settled; [apply undocumented_ok; vm_compute; reflexivity|]).
  - exact disk_regular.
  - apply (regularb_ok farm _ 12 _ (fr_sels disk_fragment)); [vm_compute; reflexivity|tauto].
Qed.
Definition bigger_world : world := with_schema disk_world (fun _ => SRDecoded bigger_json).
Lemma disk_apart path : is_source PropC35.pair_listing "." path -> out_loc text_env path <> env_locate text_env (globals_path plain_config ".").
Proof. intros [-> | ->]%PropC35.pair_source; discriminate. Qed.
Example C81_nonvacuous : added farm_json bigger_json /\ farm <> bigger /\
  (exists out f', qlc 30 disk_world (args_threads 1) (repeat 0 90) = Exited 0 out f') /\
  (exists out f', qlc 30 bigger_world (args_threads 1) (repeat 0 90) = Exited 0 out f') /\
  (forall fuel fuel' sched sched' out out' f' g',
     qlc fuel disk_world (args_threads 1) sched = Exited 0 out f' -> qlc fuel' bigger_world (args_threads 1) sched' = Exited 0 out' g' -> forall l, f' l = g' l).
Proof.
  split; [exact bigger_added|]. split; [discriminate|]. split; [|split].
  - do 2 eexists. vm_compute. reflexivity.
  - do 2 eexists. vm_compute. reflexivity.
  - destruct disk_settled. destruct PropC35.C35_nonvacuous as (_ & _ & _ & N & _ & _ & _ & C & Co & _).
    assert (Ls' : parse_schema (rc_schema_path (merge_config 4 (args_threads 1) config_default)) (SRDecoded bigger_json) = Ok bigger) by (vm_compute; reflexivity).
    exact (C81_outputs disk_world (args_threads 1) config_default (fun _ => SRDecoded bigger_json) farm bigger se_config PropC78.disk_schema Ls' bigger_grown
      Co (consistentb_ok bigger eq_refl) C bigger_inputs N disk_separate disk_apart (fun p => plain_ok) se_paths PropC78.disk_finite
      (or_introl eq_refl) disk_settled_source).
Qed.

(** ** Not without validity: an imported fragment from outside that selects a field no type has.  It adds nothing, until a field of
    that name is added to the schema *)
Theorem C81_refuted : added farm_json bigger_json /\ exists out f' out' g',
  qlc 30 outer_world (args_threads 1) (repeat 0 90) = Exited 0 out f' /\
  qlc 30 (with_schema outer_world (fun _ => SRDecoded bigger_json)) (args_threads 1) (repeat 0 90) = Exited 0 out' g' /\
  f' "./x.graphql.d.ts" <> g' "./x.graphql.d.ts".
Proof.
  split; [exact bigger_added|]. do 4 eexists. split; [vm_compute; reflexivity|]. split; [vm_compute; reflexivity|]. vm_compute. discriminate.
Qed.
Print Assumptions C81_refuted.
(** ** Other additions do change the outputs: a value of an enum, an object type of an interface *)
Theorem C81_value_refuted : exists out f' out' g',
  qlc 30 disk_world (args_threads 1) (repeat 0 90) = Exited 0 out f' /\
  qlc 30 (with_schema disk_world (fun _ => SRDecoded calmer_json)) (args_threads 1) (repeat 0 90) = Exited 0 out' g' /\
  f' (globals_path plain_config ".") <> g' (globals_path plain_config ".") /\ f' "./g.graphql.d.ts" = g' "./g.graphql.d.ts".
Proof. do 4 eexists. split; [vm_compute; reflexivity|]. split; [vm_compute; reflexivity|]. split; vm_compute; [discriminate|reflexivity]. Qed.
Theorem C81_member_refuted : exists out f' out' g',
  qlc 30 disk_world (args_threads 1) (repeat 0 90) = Exited 0 out f' /\
  qlc 30 (with_schema disk_world (fun _ => SRDecoded foxy_json)) (args_threads 1) (repeat 0 90) = Exited 0 out' g' /\
  f' "./g.graphql.d.ts" <> g' "./g.graphql.d.ts".
Proof. do 4 eexists. split; [vm_compute; reflexivity|]. split; [vm_compute; reflexivity|]. vm_compute. discriminate. Qed.
Print Assumptions C81_value_refuted.
Print Assumptions C81_member_refuted.

(** ** From texts to texts: two disks that differ in the schema file, and in nothing that the sources read *)
From Verif Require Import Gql Json Args SpecGtext SpecJson SpecJtext SpecAgain GlobalRead PropC77.
From Verif Require SpecArgs PropC65 PropC67.
Theorem C81_text_partial : forall ck complaint jerr help version fuel wo wo' its argv a nc sched sched' cf stext j js s stext' j' js' s' out f' code' out' g',
  let rc := merge_config (wo_ncpus wo) a cf in
  let c := cconfig_of rc in
  let e := wo_env wo in
  let ls := wo_listing wo in
  let root := rc_root_dir rc in
  let f := wo_fs wo in
  on_disk ck complaint jerr wo -> on_disk ck complaint jerr wo' ->
  SpecArgs.spelled its argv -> SpecArgs.consistent its -> SpecArgs.complete its -> SpecArgs.says its a nc ->
  LinkFacts.settled wo a cf js s ->
  wo_env wo' = e -> wo_ncpus wo' = wo_ncpus wo -> wo_config wo' = wo_config wo -> wo_listing wo' = ls ->
  same_reads e ls c root f (wo_fs wo') ->
  f (env_locate e (rc_schema_path rc)) = Ok stext -> text_holds stext j -> says_schema j js -> fits js ->
  wo_fs wo' (env_locate e (rc_schema_path rc)) = Ok stext' -> text_holds stext' j' -> says_schema j' js' -> fits js' ->
  load_schema js' = Ok s' -> added js js' ->
  consistent s' -> inputs_consistent s' -> inhabited_types s' -> proper_types s' ->
  finite (dir_kids ls) (WDir root) -> env_write e (globals_path c root) = WOk ->
  (forall path, is_source ls root path -> out_loc e path <> env_locate e (globals_path c root)) ->
  valid_project e ls f c s root -> (forall path, is_source ls root path -> settled_source e f c s path) ->
  qlc_command help version fuel wo argv sched = Exited 0 out f' ->
  qlc_command help version fuel wo' argv sched' = Exited code' out' g' ->
  code' = 0 /\ same_changes f (wo_fs wo') f' g'.
Proof.
  intros ck complaint jerr help version fuel wo wo' its argv a nc sched sched' cf stext j js s stext' j' js' s' out f' code' out' g' rc c e ls root f
    Hd Hd' Sp Cn Cm Sy [Lc In0 Jn N S Gd Ho C Ag Sc Th] Ee En Ec El Sr Es Tx Sj Fi Es' Tx' Sj' Fi' L' Ad Co' Ci' In' Pr' Fin W Ap V Se H H'.
  assert (Pa : parse_args argv = URun a nc) by (apply PropC65.C65_exact; exists its; auto).
  unfold qlc_command in H, H'. rewrite Pa in H, H'.
  assert (S1 : schema_of_text jerr stext = SRDecoded js) by (apply PropC67.C67_schema; exists j; auto).
  assert (S2 : schema_of_text jerr stext' = SRDecoded js') by (apply PropC67.C67_schema; exists j'; auto).
  pose proof (in_loaded _ _ In0) as L. pose proof (intro_consistent _ _ In0) as Co.
  assert (Ls : parse_schema (rc_schema_path rc) (wo_schema wo (rc_schema_path rc)) = Ok s).
  { rewrite (od_schema _ _ _ _ Hd _ _ Es), S1. cbn [parse_schema]. rewrite L. reflexivity. }
  assert (Lw : parse_schema (rc_schema_path rc) (wo_schema wo' (rc_schema_path rc)) = Ok s').
  { rewrite <- Ee in Es'. rewrite (od_schema _ _ _ _ Hd' _ _ Es'), S2. cbn [parse_schema]. rewrite L'. reflexivity. }
  set (r' := fun _ : string => SRDecoded js').
  assert (Lm : parse_schema (rc_schema_path rc) (r' (rc_schema_path rc)) = Ok s') by (unfold r'; cbn [parse_schema]; rewrite L'; reflexivity).
  pose proof (C81_loaded _ _ _ _ Ad L L') as Gr.
  destruct (C81_accepts wo a cf r' s s' Lc Lm Gr Co Co' C Ci' In' Pr' N S Ho Ag (disk_types _ _ _ _ Hd) Fin W V) as (_ & M & Ac).
  destruct (Ac (Nat.max M fuel) (Nat.le_max_l _ _) []) as (_ & more & om & fm & Hm). cbn [app] in Hm.
  assert (Kf : fuel <= Nat.max M fuel) by apply Nat.le_max_r.
  rewrite <- (qlc_mono _ _ wo' a sched' Kf) in H' by (rewrite H'; discriminate).
  pose proof (C81_outputs wo a cf r' s s' Lc Ls Lm Gr Co Co' C Ci' N S Ap Ho Ag Fin Th Se _ _ _ _ _ _ _ _ H Hm) as Eq.
  assert (Lc' : load_config (ca_config_file a) (wo_config wo') = Ok cf) by (rewrite Ec; exact Lc).
  assert (Th' : rc_number_threads (merge_config (wo_ncpus wo') a cf) = 1 \/
    (0 < rc_number_threads (merge_config (wo_ncpus wo') a cf) /\ flat_tree ls root)) by (rewrite En; exact Th).
  assert (Rl : relisted ls (wo_listing wo')).
  { rewrite El. intros d. destruct (ls d) as [es|er]; [|reflexivity]. exists []. cbn [List.map]. rewrite app_nil_r. auto. }
  assert (N' : names_ok (wo_listing wo')) by (rewrite El; exact N).
  destruct (C77_run _ (with_schema wo r') wo' a more sched' cf s' 0 om fm code' out' g' Lc Lc' Lm Lw Ee Rl N N' S Sr Ho Ci' Th Th' Hm H') as (Ec0 & Sc0 & _).
  split; [exact Ec0|]. intros l. rewrite (Eq l). exact (Sc0 l).
Qed.
Print Assumptions C81_text_partial.
(** The disk of C72, and the one with the bigger schema *)
Definition bigger_text : string := Eval vm_compute in show_json (w_schema bigger_json).
Lemma bigger_text_read : schema_of_text "" bigger_text = SRDecoded bigger_json.
Proof. vm_compute. reflexivity. Qed.
Definition schema_files (t : string) : fs := ImportWorlds.files [("./g.graphql", barn_query); ("./n.graphql", barn_fragment); ("./schema.json", t)].
Lemma same_but_schema t : same_reads text_env PropC35.pair_listing plain_config "." disk_files (schema_files t).
Proof.
  intros path l Sp R. assert (El : l = "./g.graphql" \/ l = "./n.graphql").
  { destruct R as [|contents file' contents' n l t' E I A]; [apply PropC35.pair_source; auto|]. right.
    pose proof (disk_read _ _ Sp E) as K. destruct I as [[-> ->]|R].
    - eapply (text_step path contents); eauto.
    - destruct (disk_reach _ _ _ _ K R) as [-> ->]. eapply (text_step _ _ _ _ _ A). auto. }
  destruct El as [-> | ->]; reflexivity.
Qed.
Lemma one_thread : exists its, SpecArgs.spelled its ["--num-threads"; "1"] /\ SpecArgs.consistent its /\ SpecArgs.complete its /\ SpecArgs.says its (args_threads 1) false.
Proof. apply PropC65.C65_exact. reflexivity. Qed.
Lemma bigger_text_end : exists out g', qlc_command "" "" 30 (world_on PropC35.pair_listing (schema_files bigger_text)) ["--num-threads"; "1"] (repeat 0 90) = Exited 0 out g'.
Proof. do 2 eexists. vm_compute. reflexivity. Qed.
Example C81_nonvacuous_text : exists out f' out' g',
  qlc_command "" "" 30 disk_world ["--num-threads"; "1"] (repeat 0 90) = Exited 0 out f' /\
  qlc_command "" "" 30 (world_on PropC35.pair_listing (schema_files bigger_text)) ["--num-threads"; "1"] (repeat 0 90) = Exited 0 out' g' /\
  same_changes disk_files (schema_files bigger_text) f' g'.
Proof.
  destruct disk_ends as (out & H). destruct bigger_text_end as (out' & g' & H'). exists out, left_files, out', g'. split; [exact H|]. split; [exact H'|].
  destruct one_thread as (its & Sp & Cn & Cm & Sy).
  assert (X : exists j, text_holds farm_text j /\ says_schema j farm_json /\ fits farm_json) by (apply (PropC67.C67_schema ""); exact farm_text_read).
  destruct X as (j & Th & Sj & Fi).
  assert (X' : exists j, text_holds bigger_text j /\ says_schema j bigger_json /\ fits bigger_json) by (apply (PropC67.C67_schema ""); exact bigger_text_read).
  destruct X' as (j' & Th' & Sj' & Fi').
  refine (proj2 (C81_text_partial lenient (fun _ => "syntax error") "" "" "" 30 disk_world (world_on PropC35.pair_listing (schema_files bigger_text)) its ["--num-threads"; "1"]
    (args_threads 1) false (repeat 0 90) (repeat 0 90) config_default farm_text j farm_json farm bigger_text j' bigger_json bigger out left_files 0 out' g'
    (world_disk PropC35.pair_listing disk_files) (world_disk _ _) Sp Cn Cm Sy disk_settled eq_refl eq_refl eq_refl eq_refl (same_but_schema bigger_text) eq_refl Th Sj Fi eq_refl Th' Sj' Fi'
    bigger_loaded bigger_added (consistentb_ok bigger eq_refl) bigger_inputs bigger_inhabited (proper_typesb_ok bigger eq_refl) PropC78.disk_finite eq_refl disk_apart
    disk_project disk_settled_source H H')).
Qed.
