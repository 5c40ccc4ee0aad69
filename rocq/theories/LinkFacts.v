(** Lemmas for C72 and C73: a successful run seen from one of its outputs and the globals file. *)
From Verif Require Export SpecLink.
From Verif Require Import ShareWorlds GlobalRead JsonCheck WrittenEq Package RunFacts RespFacts PropC43 PropC49 ImportProps PropC56 PropC35 Compiled PropC06.
From Verif Require PropC17.

(** *** Acceptance depends on the names that are used only *)
Lemma denote_names (env env' : string -> value -> Prop) e : (forall n v, In n (texpr_names e) -> env n v -> env' n v) ->
  forall v, denote env e v -> denote env' e v.
Proof.
  induction e as [n|x| |e IH|a IHa b IHb|e IH]; cbn [denote texpr_names]; intros H v D; auto.
  - apply H; auto. left; auto.
  - destruct D as (l & -> & F). exists l. split; auto. eapply Forall_impl; [|exact F]. intros y. apply IH. auto.
  - destruct D as [D|D]; [left; apply IHa|right; apply IHb]; auto; intros; apply H; auto; apply in_or_app; auto.
Qed.
Lemma decl_values_names (env env' : string -> value -> Prop) d : (forall n v, In n (decl_uses d) -> env n v -> env' n v) ->
  forall v, decl_values env d v -> decl_values env' d v.
Proof.
  destruct d as [a ms|a l]; cbn [decl_values decl_uses]; intros H v.
  - intros (kvs & -> & F). exists kvs. split; auto. rewrite Forall_forall in *. intros m I. specialize (F m I). destruct (aget (m_name m) kvs); auto.
    eapply denote_names; [|exact F]. intros n w J. apply H. apply in_flat_map. eauto.
  - intros (n & I & E). exists n. split; auto.
Qed.
Lemma accepts_names D (base base' : string -> value -> Prop) :
  (forall x v, PropC17.uses D x -> (forall d, In d D -> decl_name d <> x) -> base x v -> base' x v) ->
  forall n x v, (PropC17.uses D x \/ exists d, In d D /\ decl_name d = x) -> accepts D base n x v -> accepts D base' n x v.
Proof.
  intros H. induction n as [|n IH]; intros x v U A; [exact A|]. cbn [accepts] in *. destruct A as [A B].
  assert (C : forall d, In d D -> decl_name d = x -> decl_values (accepts D base' n) d v).
  { intros d I E. eapply decl_values_names; [|exact (A d I E)]. intros y w J. apply IH. left. exists d. auto. }
  split; auto. destruct B as [B|B]; auto.
  destruct (in_dec string_dec x (List.map decl_name D)) as [I|N].
  - left. apply in_map_iff in I. destruct I as (d & E & I). eauto.
  - right. destruct U as [U|(d & I & E)]; [|exfalso; apply N, in_map_iff; eauto]. apply H; auto. intros d I E. apply N, in_map_iff. eauto.
Qed.
(** Comments do not matter *)
Lemma accepts_bare D base : forall n x v, accepts D base n x v <-> accepts (List.map bare_decl D) base n x v.
Proof.
  assert (Vb : forall env d v, decl_values env (bare_decl d) v <-> decl_values env d v).
  { intros env [a ms|a l] v; [|reflexivity]. cbn [bare_decl decl_values]. unfold obj_values.
    split; intros (kvs & -> & F); exists kvs; (split; [reflexivity|]); rewrite Forall_forall in *.
    - intros m I. specialize (F (bare_member m) (in_map _ _ _ I)). exact F.
    - intros m I. apply in_map_iff in I. destruct I as (m' & <- & I). exact (F m' I). }
  assert (Nb : forall d, decl_name (bare_decl d) = decl_name d) by (intros [? ?|? ?]; reflexivity).
  induction n as [|n IH]; intros x v; [reflexivity|]. cbn [accepts].
  assert (E : forall env env' d, (forall y w, env y w <-> env' y w) -> (decl_values env d v <-> decl_values env' d v)).
  { intros env env' d X. split; apply decl_values_names; intros y w _; apply X. }
  split; intros [A B]; split.
  - intros d I E1. apply in_map_iff in I. destruct I as (d' & <- & I). rewrite Nb in E1. apply Vb. apply (E _ _ d' IH). auto.
  - destruct B as [(d & I & E1)|B]; auto. left. exists (bare_decl d). split; [apply in_map; auto|]. rewrite Nb. auto.
  - intros d I E1. apply (E _ _ d IH). apply Vb. apply A; [apply in_map; auto|rewrite Nb; auto].
  - destruct B as [(d & I & E1)|B]; auto. left. apply in_map_iff in I. destruct I as (d' & <- & I). rewrite Nb in E1. eauto.
Qed.

(** *** The globals file in terms of the introspection data, from the declarations of the schema *)
Lemma stmts_js js s c (l : list (string * stype)) items : load_schema js = Ok s ->
  (forall n t, In (n, t) l -> get_type s n = Some t) -> Forall2 (fun x it => def_says c (fst x) (snd x) it) l items ->
  exists l' : list (string * jtypedef), List.map fst l' = List.map fst l /\
    (forall n j, In (n, j) l' -> last_named jt_name n js j) /\
    Forall2 (fun x it => stmt_for c (fst x) (snd x) it) l' items.
Proof.
  intros L G F. induction F as [|[n t] it l items D F IH]; [exists []; split; [auto|split; [intros n j []|constructor]]|].
  destruct IH as (l' & E & K & F'); [intros; apply G; right; auto|].
  destruct (loaded_last _ _ _ _ L (G n t (or_introl eq_refl))) as (j & Lj & _).
  exists ((n, j) :: l'). split; [cbn; congruence|]. split.
  - intros m j' [X|I]; auto. injection X as <- <-. auto.
  - constructor; auto. cbn [fst snd] in *. eapply def_stmt; eauto. apply G. left; auto.
Qed.

(** *** A run with exit code 0, seen from one source file *)
Section Run.
  Variables (fuel : nat) (wo : world) (a : cli_args) (sched : list nat) (cf : config_file) (js : jschema) (s : schema) (out : string) (f' : fs).
  Let rc := merge_config (wo_ncpus wo) a cf.
  Let c := cconfig_of rc.
  Let e := wo_env wo.
  Let ls := wo_listing wo.
  Let root := rc_root_dir rc.
  Let f := wo_fs wo.
  Let gl := env_locate e (globals_path c root).

  (** The situation before the run *)
  Record settled : Prop := {
    se_config : load_config (ca_config_file a) (wo_config wo) = Ok cf;
    se_intro : introspection js s;
    se_named : json_nameable c js;
    se_listing : names_ok ls;
    se_separate : separate e ls c root f;
    se_globals : forall path, is_source ls root path -> out_loc e path <> gl;
    se_orders : forall p, order_ok (env_order e p);
    se_inputs : inputs_consistent s;
    se_paths : paths_agree e f;
    se_imports : self_contained e f c ls root;
    se_threads : rc_number_threads rc = 1 \/ (0 < rc_number_threads rc /\ flat_tree ls root) }.

  Lemma run_compiled : settled -> wo_schema wo (rc_schema_path rc) = SRDecoded js ->
    (forall text ds d, env_parse e text = Ok ds -> In d ds -> parsed_named d) ->
    qlc fuel wo a sched = Exited 0 out f' ->
    (forall path, is_source ls root path -> exists contents d frags ws co,
       f (env_locate e path) = Ok contents /\ env_parse e contents = Ok [d] /\ imported_fragments e f c path contents frags /\
       document_file fuel (file_ctx e c s path frags) c (suborder (env_order e path) [2; 0]) d ws co /\
       order_ok (cx_order (file_ctx e c s path frags)) /\ order_ok (suborder (env_order e path) [2; 0]) /\
       f' (out_loc e path) = Ok (co_contents co) /\
       (is_subscription d = false -> exists P l, doc_root d = Some (P, l) /\ valid_sels s frags P l /\ frags_valid s frags l) /\
       (~ reserved (def_name d) -> doc_named frags d (def_name d)) /\
       (forall n, In n (co_globals co) -> uses_global fuel e ls c s root f n) /\
       exists ms, file_compiles fuel e f c s path ms co) /\
    (forall n, uses_global fuel e ls c s root f n -> global_type s n) /\
    ((exists n, uses_global fuel e ls c s root f n) -> exists gtext (l : list (string * jtypedef)) G,
       f' gl = Ok gtext /\ only_reads gtext G /\ NoDup (List.map fst l) /\
       Forall2 (fun x it => stmt_for c (fst x) (snd x) it) l G /\
       (forall n j, In (n, j) l -> last_named jt_name n js j) /\
       (forall n, In n (List.map fst l) <-> (exists r, uses_global fuel e ls c s root f r /\ leads s r n) /\ get_type s n <> None)).
  Proof.
    intros [Lc In0 Jn N S Gd Ho C Ag Sc Th] Es Pn H. pose proof (in_loaded _ _ In0) as L. pose proof (intro_consistent _ _ In0) as Co.
    assert (Ls : parse_schema (rc_schema_path rc) (wo_schema wo (rc_schema_path rc)) = Ok s) by (rewrite Es; cbn [parse_schema]; rewrite L; reflexivity).
    pose proof (loaded_nameable _ _ _ L Jn) as Nm. pose proof (loaded_globals_nameable _ _ _ L Jn) as Gn.
    assert (E2E : (forall path, is_source ls root path -> exists ms co, file_compiles fuel e f c s path ms co /\
       (forall m, In m ms -> ms_level m = CompileWarning) /\ f' (out_loc e path) = Ok (co_contents co)) /\
     ((exists n, uses_global fuel e ls c s root f n) ->
       exists text l ds, f' gl = Ok text /\ NoDup (List.map fst l) /\ sorted_by fst l /\
         (forall n t, In (n, t) l <-> (exists r, uses_global fuel e ls c s root f r /\ leads s r n) /\ get_type s n = Some t) /\
         Forall2 (fun x d => def_text c (fst x) (snd x) d) l ds /\ text = header +++ join (nl +++ nl) ds /\
         forall n, uses_global fuel e ls c s root f n -> global_type s n)).
    { destruct Th as [One|[Pos Fl]].
      - destruct (C49_end_to_end fuel wo a sched cf s out f' Lc Ls N S Gd Ho C One H) as (A & B & _). split; assumption.
      - destruct (C49_flat fuel wo a sched cf s out f' Lc Ls N S Gd Ho C Pos Fl H) as (A & B & _). split; assumption. }
    destruct E2E as [Outs Globs]. split; [|split].
    - intros path Sp. destruct (Outs path Sp) as (ms & co & Fc & _ & Eo).
      pose proof Fc as (contents & d & im & ms0 & frags & ms1 & ws & op & Er & Ep & Ei & Ef & Ec & Ei' & _).
      assert (Dd : env_parse e contents = Ok [d]).
      { unfold parse_file in Ep. destruct (env_parse e contents) as [[|d1 [|d2 ds]]|]; try discriminate. injection Ep as <-. reflexivity. }
      assert (Ic : imported_fragments e f c path contents frags).
      { split.
        - intros n fd. exact (stage_frag_sound fuel e f c path contents im ms0 frags ms1 (Ho path) Ei Ef n fd).
        - intros t o fd. exact (stage_frag_complete fuel e f c path contents im ms0 frags ms1 (Ho path) Ei Ef Ag t o fd). }
      assert (Oc : order_ok (cx_order (file_ctx e c s path frags))) by (intros q A k; apply Ho).
      assert (Od : order_ok (suborder (env_order e path) [2; 0])) by (intros q A k; apply Ho).
      exists contents, d, frags, ws, co. split; [exact Er|]. split; [exact Dd|]. split; [exact Ic|].
      split; [exists op; auto|]. split; [exact Oc|]. split; [exact Od|]. split; [exact Eo|]. split; [|split; [|split]].
      + intros Su.
        assert (Ff : forall n fd, aget n frags = Some fd -> composite s (fr_cond fd) /\ fine s frags (fr_cond fd) (fr_sels fd)).
        { intros n fd G. destruct (proj1 Ic n fd G) as (t & o & R & Hf & En).
          destruct (Outs t (Sc _ _ _ _ Sp Er R)) as (ms' & co' & Fc' & _).
          destruct Fc' as (o' & d' & im' & ms0' & frags' & ms1' & ws' & op' & Er' & Ep' & Ei2 & Ef' & Ec' & _).
          pose proof (reach_readable e f c path contents t o R) as Rt. rewrite Rt in Er'. injection Er' as <-.
          rewrite (proj2 (parse_file_frag e o t fd) Hf) in Ep'. injection Ep' as <-.
          assert (Oc' : order_ok (cx_order (file_ctx e c s t frags'))) by (intros q A k; apply Ho).
          destruct (C06_accepted _ _ _ _ _ _ _ Oc' Co Ec' eq_refl eq_refl) as [Cc Fi]. split; [exact Cc|].
          intros P' x W B. apply (Fi P' x W). eapply bad_weaken; [|exact B]. intros m Nm'. cbn [file_ctx cx_frags].
          destruct (aget m frags') as [fd'|] eqn:Em; auto. exfalso.
          destruct (stage_frag_sound fuel e f c t o im' ms0' frags' ms1' (Ho t) Ei2 Ef' m fd' Em) as (t2 & o2 & R2 & H2 & E2).
          apply (proj2 Ic t2 o2 fd' (reach_trans _ _ _ _ _ _ _ _ _ R R2) H2). rewrite E2. exact Nm'. }
        pose proof (compile_result _ Oc Co _ _ _ _ Ec) as R.
        inversion R as [| | | |P p l ws0 op0 Rt Cp X Ev Sh En Ek]; subst.
        assert (Dr : doc_root d = Some (P, l)). { pose proof (code_root_doc d Su) as E. rewrite Rt in E. cbn in E. congruence. }
        exists P, l. split; auto. destruct (C06_accepted _ _ _ _ _ _ _ Oc Co Ec Dr Su) as [_ Fi].
        assert (V : valid_sels s frags P l).
        { destruct (run_fine s frags (cc_deprecations c) Ff) as (_ & _ & Y). eapply Y; [exact X|exact Fi]. }
        split; auto. intros n fd Sn Gn'. eapply valid_spreads; eauto.
      + intros Fr. destruct (Pn _ _ _ Dd (or_introl eq_refl)) as [P1 P2 P3].
        assert (P1' : gname (def_name d)) by (apply P1; intros p l ->; discriminate Ec).
        constructor; auto. intros k M. apply selects_own in M. destruct M as [M|(n & fd & G & M)]; auto.
        destruct (proj1 Ic n fd G) as (t & o & _ & Hf & _).
        exact (pn_keys _ (Pn _ _ _ Hf (or_introl eq_refl)) k M).
      + intros n I. exists path, ms, co. auto.
      + exists ms. exact Fc.
    - intros n Un. destruct Globs as (_ & _ & _ & _ & _ & _ & _ & _ & _ & T); eauto.
    - intros Ex. destruct (Globs Ex) as (gtext & gs & ds' & Eg2 & Ng & _ & Kg & Fg & Et & Tg).
      destruct (defs_read c s Nm Gn C gs ds') as (items & Si & Oi & Li); auto. { intros n t J. apply Kg in J. tauto. }
      destruct (stmts_js js s c gs items L) as (l' & El & Kl & Fl); auto. { intros n t J. apply Kg in J. tauto. }
      exists gtext, l', items. split; auto. split.
      { assert (R : read_module gtext items).
        { rewrite Et. exists (flat_map item_toks items). split; [apply (lexes_banner _ _ Li)|apply p_items_ok; auto]. }
        intros is'. split; [|intros ->; exact R]. intros R'. eapply read_module_functional; eauto. }
      split; [congruence|]. split; auto. split; auto. intros n. rewrite El. split.
      + intros I. apply in_map_iff in I. destruct I as ([m t] & E & I). cbn in E. subst m. apply Kg in I. destruct I as [I1 I2]. split; auto. congruence.
      + intros [U G]. destruct (get_type s n) as [t|] eqn:E; [|congruence]. apply (in_map fst gs (n, t)). apply Kg. auto.
  Qed.
  Lemma run_linked : settled -> wo_schema wo (rc_schema_path rc) = SRDecoded js ->
    (forall text ds d, env_parse e text = Ok ds -> In d ds -> parsed_named d) ->
    qlc fuel wo a sched = Exited 0 out f' ->
    (forall path, is_source ls root path -> exists contents d frags ws co,
       f (env_locate e path) = Ok contents /\ env_parse e contents = Ok [d] /\ imported_fragments e f c path contents frags /\
       document_file fuel (file_ctx e c s path frags) c (suborder (env_order e path) [2; 0]) d ws co /\
       order_ok (cx_order (file_ctx e c s path frags)) /\ order_ok (suborder (env_order e path) [2; 0]) /\
       f' (out_loc e path) = Ok (co_contents co) /\
       (is_subscription d = false -> exists P l, doc_root d = Some (P, l) /\ valid_sels s frags P l /\ frags_valid s frags l) /\
       (~ reserved (def_name d) -> doc_named frags d (def_name d)) /\
       (forall n, In n (co_globals co) -> uses_global fuel e ls c s root f n)) /\
    (forall n, uses_global fuel e ls c s root f n -> global_type s n) /\
    ((exists n, uses_global fuel e ls c s root f n) -> exists gtext (l : list (string * jtypedef)) G,
       f' gl = Ok gtext /\ only_reads gtext G /\ NoDup (List.map fst l) /\
       Forall2 (fun x it => stmt_for c (fst x) (snd x) it) l G /\
       (forall n j, In (n, j) l -> last_named jt_name n js j) /\
       (forall n, In n (List.map fst l) <-> (exists r, uses_global fuel e ls c s root f r /\ leads s r n) /\ get_type s n <> None)).
  Proof.
    intros Se Es Pn H. destruct (run_compiled Se Es Pn H) as (A & B). split; [|exact B]. intros path Sp.
    destruct (A path Sp) as (contents & d & frags & ws & co & H1 & H2 & H3 & H4 & H5 & H6 & H7 & H8 & H9 & H10 & _).
    exists contents, d, frags, ws, co. auto 11.
  Qed.
End Run.
