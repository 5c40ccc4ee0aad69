(** C94: descriptions and deprecations of the schema end up in comments and warnings only. *)
From Verif Require Import DocsFacts GrowFacts Rewrite PropC18 PropC48 PropC79 PropC80 PropC81 ProjectFacts EndFacts LoadFacts GlobalRead JsonCheck LoadName Written NameCheck.
From Verif Require Import PropC56 PropC69 PropC72 GrowWorlds SpecStmt LinkFacts.
From Verif Require PropC49 PropC54 PropC78 PropC35.

(** Read with other descriptions and deprecations or refused for the same reason *)
Theorem C94_loaded : forall js js', redescribed js js' ->
  (forall er, load_schema js = Err er <-> load_schema js' = Err er) /\ (forall n, (exists s t, load_schema js = Ok s /\ get_type s n = Some t) <-> (exists s t, load_schema js' = Ok s /\ get_type s n = Some t)).
Proof.
  intros js js' R. pose proof (redescribed_load _ _ R) as E. destruct (load_schema js) as [s|er0], (load_schema js') as [s'|er1]; cbn in E; try discriminate E.
  - injection E as E. split; [intros er; split; discriminate|]. intros n. pose proof (alike_get _ _ E n) as A. split.
    + intros (s0 & t & X & G). injection X as <-. rewrite G in A. destruct (get_type s' n) as [t'|] eqn:G'; [eauto|contradiction].
    + intros (s0 & t & X & G). injection X as <-. rewrite G in A. destruct (get_type s n) as [t'|] eqn:G'; [eauto|contradiction].
  - injection E as ->. split; [tauto|]. intros n. split; intros (s0 & t & X & _); discriminate X.
Qed.
Print Assumptions C94_loaded.
Lemma redescribed_ok js js' s : redescribed js js' -> load_schema js = Ok s -> exists s', load_schema js' = Ok s' /\ nodoc s = nodoc s'.
Proof.
  intros R L. pose proof (redescribed_load _ _ R) as E. rewrite L in E. destruct (load_schema js') as [s'|]; [|discriminate E]. injection E as E. eauto.
Qed.

(** The modules of a document: they import the same globals and read as the same statements, if both introspection results have
    usable names and no description ends a comment *)
Theorem C94_module_partial : forall n n' js js' cx cx' c o o' d ws ws' co co' P l,
  redescribed js js' -> load_schema js = Ok (cx_schema cx) -> load_schema js' = Ok (cx_schema cx') ->
  consistent (cx_schema cx) -> cx_frags cx' = cx_frags cx ->
  order_ok (cx_order cx) -> order_ok (cx_order cx') -> order_ok o -> order_ok o' ->
  json_nameable c js -> json_nameable c js' -> doc_named (cx_frags cx) d (def_name d) ->
  document_file n cx c o d ws co -> document_file n' cx' c o' d ws' co' -> doc_root d = Some (P, l) -> is_subscription d = false ->
  frags_valid (cx_schema cx) (cx_frags cx) l -> Rewrite.settled (cx_schema cx) (cx_frags cx) P (fun x => In x l) ->
  co_globals co = co_globals co' /\ exists M, only_reads (co_contents co) M /\ only_reads (co_contents co') M.
Proof.
  intros n n' js js' cx cx' c o o' d ws ws' co co' P l R L L' Co Fe O O' Oo Oo' Jn Jn' Dn H H' Dr Su Fv St.
  destruct (redescribed_ok _ _ _ R L) as (s' & Ls' & E). rewrite L' in Ls'. injection Ls' as <-.
  destruct (modules_alike _ _ _ _ _ _ _ _ _ _ _ _ _ _ E Co Fe O O' Oo Oo' H H' Dr Su Fv St) as (Eg & m & m' & W & W' & Ei). split; [exact Eg|].
  exists (tsfile_items m). split; [exact (proj2 W (loaded_nameable _ _ _ L Jn) Dn)|]. rewrite Ei. rewrite <- Fe in Dn. exact (proj2 W' (loaded_nameable _ _ _ L' Jn') Dn).
Qed.
Print Assumptions C94_module_partial.

(** *** Whole projects *)
(** The same content, or two texts that read as the same statements *)
Definition reads_alike (a b : res string string) : Prop := a = b \/ exists t t' M, a = Ok t /\ b = Ok t' /\ only_reads t M /\ only_reads t' M.

Lemma file_alike e f c js js' s s' path k k' ms ms' co co' :
  redescribed js js' -> load_schema js = Ok s -> load_schema js' = Ok s' -> consistent s -> (forall p, order_ok (env_order e p)) -> paths_agree e f ->
  json_nameable c js -> json_nameable c js' -> (forall text ds d, env_parse e text = Ok ds -> In d ds -> parsed_named d) ->
  settled_source e f c s path -> (forall contents d, f (env_locate e path) = Ok contents -> env_parse e contents = Ok [d] -> ~ reserved (def_name d)) ->
  file_compiles k e f c s path ms co -> file_compiles k' e f c s' path ms' co' ->
  co_globals co = co_globals co' /\ exists M, only_reads (co_contents co) M /\ only_reads (co_contents co') M.
Proof.
  intros Rd L L' Co Ho Ag Jn Jn' Pn (contents & d & P & l & frags & V & St) Nr
    (contents1 & d1 & im & ms0 & frags1 & ms1 & ws & op & E1 & E2 & E3 & E4 & E5 & E6 & _)
    (contents2 & d2 & im2 & ms2 & frags2 & ms3 & ws2 & op2 & F1 & F2 & F3 & F4 & F5 & F6 & _).
  rewrite E1 in F1. injection F1 as <-. rewrite E2 in F2. injection F2 as <-.
  pose proof (va_read _ _ _ _ _ _ _ _ _ _ V) as R. rewrite E1 in R. injection R as ->.
  pose proof (proj1 (parse_one _ _ _ _) E2) as Pa. rewrite (va_parse _ _ _ _ _ _ _ _ _ _ V) in Pa. injection Pa as <-.
  assert (X : Done (im, ms0) = Done (im2, ms2)).
  { rewrite <- (EndFacts.add_imports_mono e f c k (Nat.max k k') path contents [] [] (Nat.le_max_l _ _)) in E3 by (rewrite E3; discriminate).
    rewrite <- (EndFacts.add_imports_mono e f c k' (Nat.max k k') path contents [] [] (Nat.le_max_r _ _)) in F3 by (rewrite F3; discriminate). congruence. }
  injection X as <- <-. rewrite E4 in F4. injection F4 as <- <-.
  pose proof (foreign_is k e f c path contents im ms0 frags1 ms1 frags (Ho path) Ag E3 E4 (va_brought _ _ _ _ _ _ _ _ _ _ V)) as Ext.
  assert (Vs : valid_sels s frags1 P l) by (apply (valid_ext s frags frags1 (fun n => eq_sym (Ext n))); exact (va_sels _ _ _ _ _ _ _ _ _ _ V)).
  pose proof (va_parse _ _ _ _ _ _ _ _ _ _ V) as Dd.
  assert (Dn : doc_named frags1 d (def_name d)).
  { destruct (Pn _ _ _ Dd (or_introl eq_refl)) as [P1 P2 P3].
    assert (P1' : gname (def_name d)) by (apply P1; intros p l0 ->; discriminate E5).
    constructor; auto; [exact (Nr _ _ E1 Dd)|]. intros k0 M. apply selects_own in M. destruct M as [M|(n & fd & G & M)]; auto.
    destruct (stage_frag_sound k e f c path contents im ms0 frags1 ms1 (Ho path) E3 E4 n fd G) as (t & o & _ & Hf & _).
    exact (pn_keys _ (Pn _ _ _ Hf (or_introl eq_refl)) k0 M). }
  apply (C94_module_partial k k' js js' (file_ctx e c s path frags1) (file_ctx e c s' path frags1) c (suborder (env_order e path) [2; 0]) (suborder (env_order e path) [2; 0]) d ws ws2 co co' P l);
    auto; try (intros q A y; apply Ho).
  - exists op. auto.
  - exists op2. auto.
  - exact (va_root _ _ _ _ _ _ _ _ _ _ V).
  - exact (va_query _ _ _ _ _ _ _ _ _ _ V).
  - exact (proj2 (valid_frags s frags1) P l Vs).
  - exact (settled_ext s frags frags1 (fun n => eq_sym (Ext n)) P _ St _ (fun x => iff_refl _)).
Qed.

Section Project.
Variables (wo : world) (a : cli_args) (cf : config_file) (read' : string -> schema_read) (js js' : jschema) (s : schema).
Let rc := merge_config (wo_ncpus wo) a cf.
Let c := cconfig_of rc.
Let e := wo_env wo.
Let ls := wo_listing wo.
Let root := rc_root_dir rc.
Let f := wo_fs wo.
Let wo' := with_schema wo read'.
Hypothesis Lc : load_config (ca_config_file a) (wo_config wo) = Ok cf.
Hypothesis Rs : wo_schema wo (rc_schema_path rc) = SRDecoded js.
Hypothesis Rs' : read' (rc_schema_path rc) = SRDecoded js'.
Hypothesis rd : redescribed js js'.
Hypothesis Ld : load_schema js = Ok s.
(** The schema *)
Hypothesis co : consistent s.
Hypothesis ci : inputs_consistent s.
Hypothesis inh : inhabited_types s.
Hypothesis proper : proper_types s.
(** The surroundings *)
Hypothesis names : names_ok ls.
Hypothesis sep : separate e ls c root f.
Hypothesis apart : forall path, is_source ls root path -> out_loc e path <> env_locate e (globals_path c root).
Hypothesis orders : forall p, order_ok (env_order e p).
Hypothesis agree : paths_agree e f.
Hypothesis types : types_parse e.
Hypothesis fin : finite (dir_kids ls) (WDir root).
Hypothesis writable : env_write e (globals_path c root) = WOk.

Lemma redescribed_schema : exists s', load_schema js' = Ok s' /\ nodoc s = nodoc s' /\
  parse_schema (rc_schema_path rc) (wo_schema wo (rc_schema_path rc)) = Ok s /\ parse_schema (rc_schema_path rc) (read' (rc_schema_path rc)) = Ok s' /\
  consistent s' /\ inputs_consistent s' /\ inhabited_types s' /\ proper_types s'.
Proof.
  destruct (redescribed_ok _ _ _ rd Ld) as (s' & L' & E). exists s'. rewrite Rs, Rs'. cbn [parse_schema]. rewrite Ld, L'.
  repeat (split; [first [reflexivity|assumption]|]). split; [exact (proj1 (alike_consistent _ _ E) co)|]. split; [exact (proj1 (alike_inputs _ _ E) ci)|].
  split; [exact (proj1 (alike_inhabited _ _ E) inh)|exact (proj1 (alike_proper _ _ E) proper)].
Qed.

(** Valid with one is valid with the other; then the runs end, with exit code 0 *)
Theorem C94_accepts : exists s', load_schema js' = Ok s' /\ (valid_project e ls f c s root <-> valid_project e ls f c s' root) /\
  (valid_project e ls f c s root -> exists N, forall k, N <= k -> forall sched,
    (qlc k wo' a sched = Running \/ exists out f', qlc k wo' a sched = Exited 0 out f') /\
    exists more out f', qlc k wo' a (sched ++ more) = Exited 0 out f').
Proof.
  destruct redescribed_schema as (s' & L' & E & Ls & Ls' & Co' & Ci' & In' & Pr'). exists s'. split; [exact L'|].
  pose proof (alike_valid_project _ _ e ls f c root E) as Vi. split; [exact Vi|]. intros V.
  exact (C79_accepts wo' a cf s' Lc Ls' names sep orders agree Co' Ci' In' Pr' types fin (proj1 Vi V) writable).
Qed.

Hypothesis threads : threads_ok (rc_number_threads rc) ls root.
Hypothesis settled : forall path, is_source ls root path -> settled_source e f c s path.
(** Names that can be declared, and descriptions that do not end a comment *)
Hypothesis nameable : json_nameable c js.
Hypothesis nameable' : json_nameable c js'.
Hypothesis parsed : forall text ds d, env_parse e text = Ok ds -> In d ds -> parsed_named d.
Hypothesis usable : forall path contents d, is_source ls root path -> f (env_locate e path) = Ok contents -> env_parse e contents = Ok [d] -> ~ reserved (def_name d).

(** Every file is left the same, or with a text that reads as the same statements; and only outputs and the globals file differ *)
Theorem C94_outputs_partial : forall fuel fuel' sched sched' out out' f' g',
  qlc fuel wo a sched = Exited 0 out f' -> qlc fuel' wo' a sched' = Exited 0 out' g' ->
  (forall l, reads_alike (f' l) (g' l)) /\
  forall l, (forall path, is_source ls root path -> l <> out_loc e path) -> l <> env_locate e (globals_path c root) -> f' l = f l /\ g' l = f l.
Proof.
  destruct redescribed_schema as (s' & L' & E & Ls & Ls' & Co' & Ci' & In' & Pr'). intros fuel fuel' sched sched' out out' f' g' H H'.
  assert (A : forall k w sch s0 o h, (w = wo /\ s0 = s \/ w = wo' /\ s0 = s') -> qlc k w a sch = Exited 0 o h ->
    (forall path, is_source ls root path -> exists ms q, file_compiles k e f c s0 path ms q /\
       (forall m, In m ms -> ms_level m = CompileWarning) /\ h (out_loc e path) = Ok (co_contents q)) /\
    ((exists n, PropC49.uses_global k e ls c s0 root f n) ->
       exists text l ds, h (env_locate e (globals_path c root)) = Ok text /\ NoDup (List.map fst l) /\ sorted_by fst l /\
         (forall n t, In (n, t) l <-> (exists r, PropC49.uses_global k e ls c s0 root f r /\ SpecGlobal.leads s0 r n) /\ get_type s0 n = Some t) /\
         Forall2 (fun x d => def_text c (fst x) (snd x) d) l ds /\ text = header +++ join (nl +++ nl) ds /\
         forall n, PropC49.uses_global k e ls c s0 root f n -> global_type s0 n) /\
    (forall l, (forall path, is_source ls root path -> l <> out_loc e path) ->
       (l <> env_locate e (globals_path c root) \/ forall n, ~ PropC49.uses_global k e ls c s0 root f n) -> h l = f l)).
  { intros k w sch s0 o h [[-> ->]|[-> ->]] X; destruct threads as [One|[Pos Fl]].
    - exact (PropC49.C49_end_to_end k wo a sch cf s o h Lc Ls names sep apart orders ci One X).
    - exact (PropC49.C49_flat k wo a sch cf s o h Lc Ls names sep apart orders ci Pos Fl X).
    - exact (PropC49.C49_end_to_end k wo' a sch cf s' o h Lc Ls' names sep apart orders Ci' One X).
    - exact (PropC49.C49_flat k wo' a sch cf s' o h Lc Ls' names sep apart orders Ci' Pos Fl X). }
  destruct (A _ _ _ _ _ _ (or_introl (conj eq_refl eq_refl)) H) as (O1 & G1 & U1).
  destruct (A _ _ _ _ _ _ (or_intror (conj eq_refl eq_refl)) H') as (O2 & G2 & U2).
  assert (Same : forall path ms q ms' q', is_source ls root path -> file_compiles fuel e f c s path ms q -> file_compiles fuel' e f c s' path ms' q' ->
    co_globals q = co_globals q' /\ exists M, only_reads (co_contents q) M /\ only_reads (co_contents q') M).
  { intros path ms q ms' q' Sp F1 F2. eapply file_alike; eauto. }
  assert (Us : forall n, PropC49.uses_global fuel e ls c s root f n <-> PropC49.uses_global fuel' e ls c s' root f n).
  { intros n. split; intros (path & ms & q & Sp & Fc & I).
    - destruct (O2 path Sp) as (ms' & q' & Fc' & _). exists path, ms', q'. destruct (Same _ _ _ _ _ Sp Fc Fc') as [Eg _]. rewrite <- Eg. auto.
    - destruct (O1 path Sp) as (ms' & q' & Fc' & _). exists path, ms', q'. destruct (Same _ _ _ _ _ Sp Fc' Fc) as [Eg _]. rewrite Eg. auto. }
  split; [|intros l Nl Ng; split; [exact (U1 l Nl (or_introl Ng))|exact (U2 l Nl (or_introl Ng))]].
  destruct (finite_list _ _ fin) as (all & Hall).
  assert (Dec : (exists n, PropC49.uses_global fuel e ls c s root f n) \/ forall n, ~ PropC49.uses_global fuel e ls c s root f n).
  { assert (X : forall xs, (forall y, In y xs -> In y all) -> (exists n, PropC49.uses_global fuel e ls c s root f n) \/
      forall path ms q n, In (WFile path) xs -> file_compiles fuel e f c s path ms q -> ~ In n (co_globals q)).
    { induction xs as [|x xs IH]; intros Sub; [right; intros path ms q n []|]. destruct IH as [U|N]; [intros y I; apply Sub; right; exact I|left; exact U|].
      destruct x as [path|d]; [|right; intros p ms q n [Ed|I]; [discriminate Ed|eauto]].
      assert (Sp : is_source ls root path) by (apply Hall, Sub; left; reflexivity).
      destruct (O1 path Sp) as (ms & q & Fc & _). destruct (co_globals q) as [|n gs] eqn:Eg.
      - right. intros p ms' q' n [Ed|I] Fc' J; [|exact (N _ _ _ _ I Fc' J)]. injection Ed as <-. destruct (O2 path Sp) as (ms2 & q2 & F2 & _).
        rewrite (proj1 (Same _ _ _ _ _ Sp Fc' F2)), <- (proj1 (Same _ _ _ _ _ Sp Fc F2)), Eg in J. exact J.
      - left. exists n, path, ms, q. rewrite Eg. split; [exact Sp|split; [exact Fc|left; reflexivity]]. }
    destruct (X all (fun y I => I)) as [U|N]; auto. right. intros n (path & ms & q & Sp & Fc & I). exact (N path ms q n (proj2 (Hall _) Sp) Fc I). }
  intros l. destruct (in_dec string_dec l (flat_map (fun x => match x with WFile p => [out_loc e p] | _ => [] end) all)) as [I|No].
  - apply in_flat_map in I. destruct I as ([path|d] & Ix & I); [|destruct I]. destruct I as [<-|[]].
    assert (Sp : is_source ls root path) by (apply Hall; exact Ix).
    destruct (O1 path Sp) as (ms & q & F1 & _ & E1). destruct (O2 path Sp) as (ms' & q' & F2 & _ & E2).
    destruct (Same _ _ _ _ _ Sp F1 F2) as (_ & M & R & R'). right. exists (co_contents q), (co_contents q'), M. auto.
  - assert (Nl : forall path, is_source ls root path -> l <> out_loc e path).
    { intros path Sp ->. apply No, in_flat_map. exists (WFile path). split; [apply Hall; exact Sp|left; reflexivity]. }
    destruct (string_dec l (env_locate e (globals_path c root))) as [->|Ng]; [|left; rewrite (U1 l Nl (or_introl Ng)), (U2 l Nl (or_introl Ng)); reflexivity].
    destruct Dec as [U|Nu]; [|left; rewrite (U1 _ Nl (or_intror Nu)), (U2 _ Nl (or_intror (fun n X => Nu n (proj2 (Us n) X)))); reflexivity].
    destruct (G1 U) as (text & l1 & ds & E1 & N1 & S1 & K1 & T1 & Et1 & Gt). destruct U as (n & U).
    destruct (G2 (ex_intro _ n (proj1 (Us n) U))) as (text2 & l2 & ds2 & E2 & N2 & S2 & K2 & T2 & Et2 & _).
    destruct (defs_read c s (loaded_nameable _ _ _ Ld nameable) (loaded_globals_nameable _ _ _ Ld nameable) ci l1 ds) as (items & Si & Oi & Li); auto. { intros m t J. apply K1 in J. tauto. }
    destruct (defs_read c s' (loaded_nameable _ _ _ L' nameable') (loaded_globals_nameable _ _ _ L' nameable') Ci' l2 ds2) as (items2 & Si2 & Oi2 & Li2); auto. { intros m t J. apply K2 in J. tauto. }
    assert (Rd : forall dss its, (forall i, In i its -> item_ok i) -> lexes (join (nl +++ nl) dss) (flat_map item_toks its) -> only_reads (header +++ join (nl +++ nl) dss) its).
    { intros dss its Oi0 Li0. assert (R : read_module (header +++ join (nl +++ nl) dss) its).
      { exists (flat_map item_toks its). split; [apply (lexes_banner _ _ Li0)|apply p_items_ok; auto]. }
      intros is'. split; [|intros ->; exact R]. intros R'. eapply read_module_functional; eauto. }
    assert (Ei : items = items2).
    { assert (Ne : List.map fst l1 = List.map fst l2).
      { assert (Sg : forall m : list (string * stype), sorted_by fst m -> StronglySorted (fun x y => str_leb x y = true) (List.map fst m)).
        { induction 1 as [|x m S IH Fa]; cbn; constructor; auto. rewrite Forall_map. exact Fa. }
        apply (sorted_perm_eq (fun x => x)); [apply Sg; auto|apply Sg; auto|rewrite map_id; auto|]. apply NoDup_Permutation; auto.
        intros x. rewrite !in_map_iff. split; intros ([m t] & <- & I); cbn [fst].
        - apply K1 in I. destruct I as [(r & Hu & Le) Eg]. pose proof (alike_get _ _ E m) as Ag. rewrite Eg in Ag. destruct (get_type s' m) as [t'|] eqn:Eg'; [|contradiction].
          exists (m, t'). split; auto. apply K2. split; auto. exists r. split; [apply Us; auto|apply (alike_leads _ _ E); auto].
        - apply K2 in I. destruct I as [(r & Hu & Le) Eg]. pose proof (alike_get _ _ E m) as Ag. rewrite Eg in Ag. destruct (get_type s m) as [t'|] eqn:Eg'; [|contradiction].
          exists (m, t'). split; auto. apply K1. split; auto. exists r. split; [apply Us; auto|apply (alike_leads _ _ E); auto]. }
      assert (Kl : forall m t, In (m, t) l1 -> get_type s m = Some t) by (intros m t I; apply K1 in I; tauto).
      assert (Kl2 : forall m t, In (m, t) l2 -> get_type s' m = Some t) by (intros m t I; apply K2 in I; tauto).
      clear - Ne Kl Kl2 Si Si2 E ci. revert l2 items2 Ne Si2 Kl2. induction Si as [|[m t] it l1 items D F IH]; intros l2 items2 Ne Si2 Kl2.
      - destruct l2; [|discriminate]. inversion Si2. auto.
      - destruct l2 as [|[m' t'] l2]; [discriminate|]. cbn in Ne. injection Ne as <- Ne. inversion Si2 as [|? it' ? its2 D' F2]; subst. cbn [fst snd] in *.
        pose proof (Kl m t (or_introl eq_refl)) as Em. pose proof (Kl2 m t' (or_introl eq_refl)) as Em'.
        f_equal.
        + eapply says_alike; [|intros nm fs Df; exact (proj1 (proj2 (ci m t nm fs Em Df)))|exact D|exact D'].
          pose proof (alike_get _ _ E m) as Ag. rewrite Em, Em' in Ag. exact Ag.
        + eapply IH; eauto; intros x w I; [apply Kl|apply Kl2]; right; exact I. }
    right. subst text text2 items2. do 3 eexists. split; [exact E1|]. split; [exact E2|]. split; [exact (Rd _ _ Oi Li)|exact (Rd _ _ Oi2 Li2)].
Qed.
End Project.
Print Assumptions C94_accepts.
Print Assumptions C94_outputs_partial.

(** The runs that end with exit code 0 *)
Theorem C94_exits_partial : forall wo a cf read' js js' s,
  let rc := merge_config (wo_ncpus wo) a cf in
  let c := cconfig_of rc in
  let e := wo_env wo in
  let ls := wo_listing wo in
  let root := rc_root_dir rc in
  let f := wo_fs wo in
  load_config (ca_config_file a) (wo_config wo) = Ok cf ->
  wo_schema wo (rc_schema_path rc) = SRDecoded js -> read' (rc_schema_path rc) = SRDecoded js' ->
  redescribed js js' -> load_schema js = Ok s ->
  consistent s -> inputs_consistent s -> inhabited_types s -> proper_types s ->
  names_ok ls -> separate e ls c root f -> (forall path, is_source ls root path -> out_loc e path <> env_locate e (globals_path c root)) ->
  (forall p, order_ok (env_order e p)) -> paths_agree e f -> types_parse e -> finite (dir_kids ls) (WDir root) -> env_write e (globals_path c root) = WOk ->
  rc_number_threads rc = 1 -> unique_fragments e ls f c root -> imports_inside e ls f c root -> relative_paths e ->
  (forall path contents d, is_source ls root path -> f (env_locate e path) = Ok contents -> env_parse e contents = Ok [d] -> is_subscription d = false) ->
  ((exists fuel sched out f', qlc fuel wo a sched = Exited 0 out f') <-> (exists fuel sched out f', qlc fuel (with_schema wo read') a sched = Exited 0 out f')).
Proof.
  intros wo a cf read' js js' s rc c e ls root f Lc Rs Rs' Ra Ld Co Ci Inh Pr Nm Sp Ap Or Ag Ty Fi Wr One Un Ins Rel Qu.
  destruct (redescribed_schema wo a cf read' js js' s Rs Rs' Ra Ld Co Ci Inh Pr) as (s' & L' & E & Ls & Ls' & Co' & Ci' & In' & Pr').
  rewrite (C79_exact_partial wo a cf s Lc Ls Nm Sp Or Ag Co Ci Inh Pr Ty Fi One Wr Un Ins Rel Qu Ap).
  rewrite (C79_exact_partial (with_schema wo read') a cf s' Lc Ls' Nm Sp Or Ag Co' Ci' In' Pr' Ty Fi One Wr Un Ins Rel Qu Ap).
  exact (alike_valid_project s s' _ _ _ _ _ E).
Qed.
Print Assumptions C94_exits_partial.

(** ** From texts to texts: two disks that differ in the schema file only *)
From Verif Require Import Gql Json Args SpecGtext SpecJson SpecJtext SpecAgain PropC77.
From Verif Require SpecArgs PropC65 PropC67.
Theorem C94_text_partial : forall ck complaint jerr help version fuel wo wo' its argv a nc sched sched' cf stext j js s stext' j' js' out f' code' out' g',
  let rc := merge_config (wo_ncpus wo) a cf in
  let c := cconfig_of rc in
  let e := wo_env wo in
  let ls := wo_listing wo in
  let root := rc_root_dir rc in
  let f := wo_fs wo in
  on_disk ck complaint jerr wo -> on_disk ck complaint jerr wo' ->
  SpecArgs.spelled its argv -> SpecArgs.consistent its -> SpecArgs.complete its -> SpecArgs.says its a nc ->
  LinkFacts.settled wo a cf js s ->
  wo_env wo' = e -> wo_ncpus wo' = wo_ncpus wo -> wo_config wo' = wo_config wo -> wo_listing wo' = ls ->
  same_reads e ls c root f (wo_fs wo') -> (forall l, l <> env_locate e (rc_schema_path rc) -> wo_fs wo' l = f l) ->
  f (env_locate e (rc_schema_path rc)) = Ok stext -> text_holds stext j -> says_schema j js -> fits js ->
  wo_fs wo' (env_locate e (rc_schema_path rc)) = Ok stext' -> text_holds stext' j' -> says_schema j' js' -> fits js' ->
  redescribed js js' -> json_nameable c js' -> inhabited_types s ->
  finite (dir_kids ls) (WDir root) -> env_write e (globals_path c root) = WOk ->
  (forall path, is_source ls root path -> out_loc e path <> env_locate e (globals_path c root)) ->
  valid_project e ls f c s root -> (forall path, is_source ls root path -> settled_source e f c s path) ->
  (forall path contents d, is_source ls root path -> f (env_locate e path) = Ok contents -> env_parse e contents = Ok [d] -> ~ reserved (def_name d)) ->
  qlc_command help version fuel wo argv sched = Exited 0 out f' ->
  qlc_command help version fuel wo' argv sched' = Exited code' out' g' ->
  code' = 0 /\ forall l, l <> env_locate e (rc_schema_path rc) -> reads_alike (f' l) (g' l).
Proof.
  intros ck complaint jerr help version fuel wo wo' its argv a nc sched sched' cf stext j js s stext' j' js' out f' code' out' g' rc c e ls root f
    Hd Hd' Sp Cn Cm Sy [Lc In0 Jn N S Gd Ho C Ag Sc Th] Ee En Ec El Sr Sl Es Tx Sj Fi Es' Tx' Sj' Fi' Rd Jn' Inh Fin W Ap V Se Us H H'.
  assert (Pa : parse_args argv = URun a nc) by (apply PropC65.C65_exact; exists its; auto).
  unfold qlc_command in H, H'. rewrite Pa in H, H'.
  assert (S1 : schema_of_text jerr stext = SRDecoded js) by (apply PropC67.C67_schema; exists j; auto).
  assert (S2 : schema_of_text jerr stext' = SRDecoded js') by (apply PropC67.C67_schema; exists j'; auto).
  pose proof (in_loaded _ _ In0) as L. pose proof (intro_consistent _ _ In0) as Co.
  pose proof (nameable_proper _ _ (loaded_nameable _ _ _ L Jn)) as Pr.
  assert (Pn : forall text ds d, env_parse e text = Ok ds -> In d ds -> parsed_named d).
  { intros text ds d0 E I. unfold e in E. rewrite (od_documents _ _ _ _ Hd) in E. destruct (parse_query ck text) as [ds'|] eqn:Ep; [|discriminate]. injection E as ->. eapply C69_named; eauto. }
  assert (Rs : wo_schema wo (rc_schema_path rc) = SRDecoded js) by (rewrite (od_schema _ _ _ _ Hd _ _ Es); exact S1).
  set (r' := fun _ : string => SRDecoded js').
  destruct (redescribed_schema wo a cf r' js js' s Rs eq_refl Rd L Co C Inh Pr) as (s' & L' & E & Ls & Lm & Co' & Ci' & In' & Pr').
  assert (Lw : parse_schema (rc_schema_path rc) (wo_schema wo' (rc_schema_path rc)) = Ok s').
  { rewrite <- Ee in Es'. rewrite (od_schema _ _ _ _ Hd' _ _ Es'), S2. cbn [parse_schema]. rewrite L'. reflexivity. }
  destruct (C94_accepts wo a cf r' js js' s Lc Rs eq_refl Rd L Co C Inh Pr N S Ho Ag (disk_types _ _ _ _ Hd) Fin W) as (_ & _ & _ & Ac).
  destruct (Ac V) as (M & Ac').
  destruct (Ac' (Nat.max M fuel) (Nat.le_max_l _ _) []) as (_ & more & om & fm & Hm). cbn [app] in Hm.
  assert (Kf : fuel <= Nat.max M fuel) by apply Nat.le_max_r.
  rewrite <- (qlc_mono _ _ wo' a sched' Kf) in H' by (rewrite H'; discriminate).
  pose proof (C94_outputs_partial wo a cf r' js js' s Lc Rs eq_refl Rd L Co C Inh Pr N S Ap Ho Ag Fin Th Se Jn Jn' Pn Us _ _ _ _ _ _ _ _ H Hm) as [Eq _].
  assert (Lc' : load_config (ca_config_file a) (wo_config wo') = Ok cf) by (rewrite Ec; exact Lc).
  assert (Th' : rc_number_threads (merge_config (wo_ncpus wo') a cf) = 1 \/
    (0 < rc_number_threads (merge_config (wo_ncpus wo') a cf) /\ flat_tree ls root)) by (rewrite En; exact Th).
  assert (Rl : relisted ls (wo_listing wo')).
  { rewrite El. intros d. destruct (ls d) as [es|er]; [|reflexivity]. exists []. cbn [List.map]. rewrite app_nil_r. auto. }
  assert (N' : names_ok (wo_listing wo')) by (rewrite El; exact N).
  destruct (C77_run _ (with_schema wo r') wo' a more sched' cf s' 0 om fm code' out' g' Lc Lc' Lm Lw Ee Rl N N' S Sr Ho Ci' Th Th' Hm H') as (Ec0 & Sc0 & _).
  split; [exact Ec0|]. intros l Nl. destruct (Sc0 l) as [[A B]|A]; [|rewrite <- A; exact (Eq l)].
  rewrite B, (Sl l Nl). specialize (Eq l). rewrite A in Eq. exact Eq.
Qed.
Print Assumptions C94_text_partial.

(** ** Non-vacuity: the project of C72, with everything in its introspection result described, and every field deprecated *)
Definition noted_field (f : jfield) : jfield :=
  {| jf_name := jf_name f; jf_description := Some "what it is"; jf_type := jf_type f; jf_deprecated := Some true |}.
Definition noted_type (d : string) (j : jtypedef) : jtypedef :=
  {| jt_kind := jt_kind j; jt_name := jt_name j; jt_description := Some d; jt_possible_types := jt_possible_types j;
     jt_input_fields := option_map (List.map noted_field) (jt_input_fields j); jt_fields := option_map (List.map noted_field) (jt_fields j);
     jt_enum_values := jt_enum_values j |}.
Lemma noted_redescribed d js : redescribed js (List.map (noted_type d) js).
Proof.
  unfold redescribed. rewrite map_map. apply map_ext. intros j. unfold bare_jtype. cbn [noted_type jt_kind jt_name jt_possible_types jt_input_fields jt_fields jt_enum_values].
  assert (X : forall o, option_map (List.map bare_jfield) o = option_map (List.map bare_jfield) (option_map (List.map noted_field) o)).
  { intros [fs|]; [|reflexivity]. cbn [option_map]. rewrite map_map. reflexivity. }
  rewrite <- !X. reflexivity.
Qed.
Definition noted_json : jschema := List.map (noted_type "a thing") farm_json.
Lemma noted_nameable : json_nameable plain_config noted_json.
Proof. apply json_nameableb_ok. vm_compute. reflexivity. Qed.
Definition noted_text : string := Eval vm_compute in show_json (w_schema noted_json).
Lemma noted_text_read : schema_of_text "" noted_text = SRDecoded noted_json.
Proof. vm_compute. reflexivity. Qed.
Lemma noted_text_end : exists out g', qlc_command "" "" 30 (world_on PropC35.pair_listing (schema_files noted_text)) ["--num-threads"; "1"] (repeat 0 90) = Exited 0 out g' /\
  left_files "./g.graphql.d.ts" <> g' "./g.graphql.d.ts" /\ left_files (globals_path plain_config ".") <> g' (globals_path plain_config ".").
Proof. do 2 eexists. split; [vm_compute; reflexivity|]. split; vm_compute; discriminate. Qed.
Lemma disk_usable path contents d : is_source PropC35.pair_listing "." path -> disk_files (env_locate text_env path) = Ok contents ->
  env_parse text_env contents = Ok [d] -> ~ reserved (def_name d).
Proof.
  intros Sp E P. apply reservedb_ok. destruct (disk_read _ _ Sp E) as [[_ ->]|[_ ->]]; vm_compute in P; injection P as <-; reflexivity.
Qed.
Example C94_nonvacuous : exists out f' out' g',
  qlc_command "" "" 30 disk_world ["--num-threads"; "1"] (repeat 0 90) = Exited 0 out f' /\
  qlc_command "" "" 30 (world_on PropC35.pair_listing (schema_files noted_text)) ["--num-threads"; "1"] (repeat 0 90) = Exited 0 out' g' /\
  f' "./g.graphql.d.ts" <> g' "./g.graphql.d.ts" /\ f' (globals_path plain_config ".") <> g' (globals_path plain_config ".") /\
  forall l, l <> "./schema.json" -> reads_alike (f' l) (g' l).
Proof.
  destruct disk_ends as (out & H). destruct noted_text_end as (out' & g' & H' & D1 & D2). exists out, left_files, out', g'. split; [exact H|]. split; [exact H'|].
  split; [exact D1|]. split; [exact D2|].
  destruct one_thread as (its & Sp & Cn & Cm & Sy).
  assert (X : exists j, text_holds farm_text j /\ says_schema j farm_json /\ fits farm_json) by (apply (PropC67.C67_schema ""); exact farm_text_read).
  destruct X as (j & Th & Sj & Fi).
  assert (X' : exists j, text_holds noted_text j /\ says_schema j noted_json /\ fits noted_json) by (apply (PropC67.C67_schema ""); exact noted_text_read).
  destruct X' as (j' & Th' & Sj' & Fi').
  assert (Sl : forall l, l <> "./schema.json" -> schema_files noted_text l = disk_files l).
  { intros l Nl. unfold schema_files, disk_files, ImportWorlds.files. cbn [aget]. unfold Base.eqb, EqB_string.
    destruct (String.eqb l "./g.graphql"); [reflexivity|]. destruct (String.eqb l "./n.graphql"); [reflexivity|].
    destruct (String.eqb_spec l "./schema.json"); [congruence|reflexivity]. }
  refine (proj2 (C94_text_partial lenient (fun _ => "syntax error") "" "" "" 30 disk_world (world_on PropC35.pair_listing (schema_files noted_text)) its ["--num-threads"; "1"]
    (args_threads 1) false (repeat 0 90) (repeat 0 90) config_default farm_text j farm_json farm noted_text j' noted_json out left_files 0 out' g'
    (world_disk PropC35.pair_listing disk_files) (world_disk _ _) Sp Cn Cm Sy disk_settled eq_refl eq_refl eq_refl eq_refl (same_but_schema noted_text) Sl eq_refl Th Sj Fi eq_refl Th' Sj' Fi'
    (noted_redescribed _ _) noted_nameable farm_inhabited PropC78.disk_finite eq_refl disk_apart disk_project disk_settled_source disk_usable H H')).
Qed.

(** ** Not without the guard on descriptions: one that ends the comment declares a type (finding 10) *)
Theorem C94_refuted : exists js', redescribed farm_json js' /\ exists out f' out' g',
  qlc 30 disk_world (args_threads 1) (repeat 0 90) = Exited 0 out f' /\
  qlc 30 (with_schema disk_world (fun _ => SRDecoded js')) (args_threads 1) (repeat 0 90) = Exited 0 out' g' /\
  ~ reads_alike (f' (globals_path plain_config ".")) (g' (globals_path plain_config ".")).
Proof.
  exists (List.map (noted_type PropC54.spoof) farm_json). split; [apply noted_redescribed|]. do 4 eexists. split; [vm_compute; reflexivity|]. split; [vm_compute; reflexivity|].
  intros [E|(t & t' & M & E & E' & R & R')]; [vm_compute in E; discriminate E|].
  assert (X : exists A B, (forall is, read_module t is <-> is = A) /\ (forall is, read_module t' is <-> is = B) /\ A <> B).
  { vm_compute in E. injection E as <-. vm_compute in E'. injection E' as <-. do 2 eexists.
    split; [apply (reads_once 2000); vm_compute; reflexivity|]. split; [apply (reads_once 2000); vm_compute; reflexivity|]. discriminate. }
  destruct X as (A & B & Ra & Rb & Nab). apply Nab. transitivity M; [symmetry|]; [apply Ra|apply Rb in R' || idtac].
  - apply R. reflexivity.
  - apply Rb. apply R'. reflexivity.
Qed.
Print Assumptions C94_refuted.
