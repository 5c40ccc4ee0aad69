(** C35: a successful run never silently drops selections. *)
From Verif Require Import RunFacts Worlds PropC43 PropC49 PropC06 PropC03 ImportProps ImportWorlds DeclFacts RegCheck ShareWorlds.

Section Kept.
  Variable s : schema.
  Variable frags : amap string fragdef.

  (** Every selection is in the type [main] of module [D]: for each object type the value can have
      there is an alternative, with a property for every selected response key, whose type again
      has everything selected below *)
  Inductive kept (D : list decl) : string -> selset -> string -> Prop :=
  | kept_intro P (M : selset) main alts :
      alternatives D main alts ->
      (forall T, possible s P T -> exists n ms, alternative main alts T n /\ In (DObj n ms) D /\
         forall k f ss, focc s frags T P M k f ss -> exists m, In m ms /\ m_name m = k /\
           (composite s (ft_name (sf_type f)) -> exists sub, core_of (m_type m) = XName sub /\
              kept D (ft_name (sf_type f)) (merged (focc s frags T P M) k (ft_name (sf_type f))) sub)) ->
      kept D P M main.

  (** Nothing is wrong with the selections written in [l] *)
  Definition fine (P : string) (l : list selection) : Prop :=
    forall P' x, within s P l P' x -> ~ bad_selection s frags P' x.
End Kept.

Lemma exact_kept s frags D : forall P M main, exact_keys s frags D P M main -> kept s frags D P M main.
Proof.
  fix IH 4. intros P M main [P0 M0 main0 alts A H]. econstructor; [exact A|]. intros T Po.
  destruct (H T Po) as (n & ms & Al & I & K & Sub). exists n, ms. split; auto. split; auto. intros k f ss F.
  pose proof (proj2 (K k) (ex_intro _ f (ex_intro _ ss F))) as J. apply in_map_iff in J. destruct J as (m & Em & J).
  exists m. split; auto. split; auto. intros C. subst k. destruct (Sub m f ss J F C) as (sub & Ec & X). exists sub. split; auto.
Qed.

(** *** Documents *)
Theorem C35_partial : forall fuel cx c o d ws co P l,
  order_ok (cx_order cx) -> order_ok o -> consistent (cx_schema cx) -> proper_types (cx_schema cx) ->
  document_file fuel cx c o d ws co -> doc_root d = Some (P, l) -> is_subscription d = false ->
  frags_valid (cx_schema cx) (cx_frags cx) l ->
  regular (cx_schema cx) (cx_frags cx) P (fun x => In x l) ->
  exists m, written_as cx c d co m /\
    kept (cx_schema cx) (cx_frags cx) (tf_decls m) P (fun x => In x l) (def_name d).
Proof.
  intros fuel cx c o d ws co P l O O' Co Pt H Dr Su Fv R.
  destruct (C03_partial _ _ _ _ _ _ _ _ _ O O' Co Pt H Dr Su Fv R) as (m & E & K). exists m. split; auto. apply exact_kept; auto.
Qed.
Print Assumptions C35_partial.

(** *** A terminating compilation of well-written selections over well-written fragments is valid *)
Section Fine.
  Variable s : schema.
  Variable frags : amap string fragdef.
  Variable dep : bool.
  Hypothesis frags_fine : forall n fd, aget n frags = Some fd -> composite s (fr_cond fd) /\ fine s frags (fr_cond fd) (fr_sels fd).

  Lemma fine_field P p al n a d sub f : fine s frags P [SField p al n a d sub] -> field_of s P n f -> composite s (ft_name (sf_type f)) ->
    fine s frags (ft_name (sf_type f)) sub.
  Proof. intros H F C P' x W. apply H. eapply wi_field; eauto. left; reflexivity. Qed.
  Lemma fine_inline P p c d sub : fine s frags P [SInline p (Some c) d sub] -> composite s c /\ fine s frags c sub.
  Proof.
    intros H. assert (C : composite s c).
    { destruct (compositeb s c) eqn:C; [apply compositeb_ok; auto|]. assert (N : ~ composite s c) by (intros N; apply compositeb_ok in N; congruence). exfalso. eapply H; [apply wi_here; left; reflexivity|]. apply bad_condition. auto. }
    split; auto. intros P' x W. apply H. eapply wi_inline; eauto. left; reflexivity.
  Qed.

  Lemma run_fine :
    (forall js P K x ws es, srun s frags dep js P K x ws es -> fine s frags P [x] -> valid_sel s frags P x) /\
    (forall js K c p l ws es, prun s frags dep js K c p l ws es -> composite s c -> fine s frags c l -> valid_sels s frags c l) /\
    (forall js P K l ws es, crun s frags dep js P K l ws es -> fine s frags P l -> valid_sels s frags P l).
  Proof.
    apply (run_mutind s frags dep
      (fun js P K x ws es => fine s frags P [x] -> valid_sel s frags P x)
      (fun js K c p l ws es => composite s c -> fine s frags c l -> valid_sels s frags c l)
      (fun js P K l ws es => fine s frags P l -> valid_sels s frags P l)).
    - intros js P K p al n a d sub l N _ F. exfalso. eapply F; [apply wi_here; left; reflexivity|]. constructor; auto.
    - intros js P K p al n a d f Ff C F. exfalso. eapply F; [apply wi_here; left; reflexivity|]. eapply bad_missing_sub; eauto.
    - intros js P K p al n a d f x sub Ff C F. exfalso. eapply F; [apply wi_here; left; reflexivity|]. eapply bad_leaf_sub; eauto. discriminate.
    - intros js P K p al n a d f Ff C F. econstructor; eauto.
    - intros js P K p al n a d f x sub ws Ff C _ IH F. eapply valid_composite; eauto; [discriminate|]. apply IH. eapply fine_field; eauto.
    - intros js P K p al n a d f x sub ws e errs Ff C _ IH F. eapply valid_composite; eauto; [discriminate|]. apply IH. eapply fine_field; eauto.
    - intros js P K p d sub F. exfalso. eapply F; [apply wi_here; left; reflexivity|]. constructor.
    - intros js P K p c d sub ws errs _ IH F. apply fine_inline in F. destruct F as [C F]. constructor; auto.
    - intros js P K p n d l N _ F. exfalso. eapply F; [apply wi_here; left; reflexivity|]. constructor; auto.
    - intros js P K p n d fd ws errs Fd _ IH F. destruct (frags_fine n fd Fd) as [C Ff]. econstructor; eauto.
    - intros js K c p sub e N _ C. contradiction.
    - intros js K c p sub w0 ws errs C _ _ IH _ F. auto.
    - intros js P K F. constructor.
    - intros js P K x l ws es ws' es' _ IH _ IH' F. constructor; [apply IH|apply IH']; intros P' y W; apply F.
      + inversion W as [? ? ? I|? ? p al n a d f sub ? ? I Ff C W'|? ? p c d sub ? ? I C W']; subst; destruct I as [EI|[]];
          [apply wi_here; left; exact EI|eapply wi_field; [left; exact EI| | |]; eauto|eapply wi_inline; [left; exact EI| |]; eauto].
      + inversion W as [? ? ? I|? ? p al n a d f sub ? ? I Ff C W'|? ? p c d sub ? ? I C W']; subst;
          [apply wi_here; right; exact I|eapply wi_field; [right; exact I| | |]; eauto|eapply wi_inline; [right; exact I| |]; eauto].
  Qed.
End Fine.

Lemma valid_spreads s frags l n : spreads l n -> forall P fd, valid_sels s frags P l -> aget n frags = Some fd ->
  composite s (fr_cond fd) /\ valid_sels s frags (fr_cond fd) (fr_sels fd).
Proof.
  assert (Vi : forall P l, valid_sels s frags P l -> forall x, In x l -> valid_sel s frags P x).
  { clear. intros P l. induction 1 as [|P x l V _ IH]; [intros y []|]. intros y [<-|I]; auto. }
  induction 1 as [l p n d I|l p al n' a d sub n I Sp IH|l p c d sub n I _ IH]; intros P fd V A.
  - pose proof (Vi _ _ V _ I) as X. inversion X; subst. rewrite A in *. match goal with Y : Some _ = Some _ |- _ => injection Y as -> end. auto.
  - pose proof (Vi _ _ V _ I) as X. inversion X; subst; eauto. match goal with Y : spreads [] _ |- _ => inversion Y; subst end; match goal with Y : In _ [] |- _ => destruct Y end.
  - pose proof (Vi _ _ V _ I) as X. inversion X; subst. eauto.
Qed.

(** *** Runs *)
(** [frags] are the fragments a file can spread: one per name that some reachable file defines *)
Definition imported_fragments (e : env) (f : fs) (c : cconfig) (path contents : string) (frags : amap string fragdef) : Prop :=
  (forall n fd, aget n frags = Some fd -> exists t o, reach e f c path contents t o /\ holds_fragment e o fd /\ fr_name fd = n) /\
  (forall t o fd, reach e f c path contents t o -> holds_fragment e o fd -> aget (fr_name fd) frags <> None).
(** Everything a source file imports is itself a source file *)
Definition self_contained (e : env) (f : fs) (c : cconfig) (ls : listing) (root : string) : Prop :=
  forall path contents t o, is_source ls root path -> f (env_locate e path) = Ok contents -> reach e f c path contents t o ->
    is_source ls root t.

Lemma reach_trans e f c a x b y t o : reach e f c a x b y -> reach e f c b y t o -> reach e f c a x t o.
Proof. intros H G. induction G; [eapply reach_more; eauto|eapply reach_more; [exact IHG| |]; eauto]. Qed.
Lemma bad_weaken s fr fr' P x : (forall n, aget n fr = None -> aget n fr' = None) -> bad_selection s fr P x -> bad_selection s fr' P x.
Proof. intros H B. destruct B; [eapply bad_unknown_field|eapply bad_missing_sub|eapply bad_leaf_sub|apply bad_no_condition|apply bad_condition|apply bad_fragment]; eauto. Qed.

Theorem C35_run : forall fuel wo a sched cf s out f',
  load_config (ca_config_file a) (wo_config wo) = Ok cf ->
  let rc := merge_config (wo_ncpus wo) a cf in
  let c := cconfig_of rc in
  let e := wo_env wo in
  let ls := wo_listing wo in
  let root := rc_root_dir rc in
  let f := wo_fs wo in
  let gl := env_locate e (globals_path c root) in
  parse_schema (rc_schema_path rc) (wo_schema wo (rc_schema_path rc)) = Ok s ->
  names_ok ls -> separate e ls c root f -> (forall path, is_source ls root path -> out_loc e path <> gl) ->
  (forall p, order_ok (env_order e p)) -> inputs_consistent s -> consistent s -> proper_types s -> paths_agree e f ->
  self_contained e f c ls root ->
  rc_number_threads rc = 1 \/ (0 < rc_number_threads rc /\ flat_tree ls root) ->
  qlc fuel wo a sched = Exited 0 out f' ->
  forall path, is_source ls root path -> exists contents d frags P l,
    f (env_locate e path) = Ok contents /\ env_parse e contents = Ok [d] /\ imported_fragments e f c path contents frags /\
    (is_subscription d = false -> doc_root d = Some (P, l) /\
       (* nothing is invalid, the imported fragments included *)
       valid_sels s frags P l /\
       (* and nothing is missing in the output *)
       (regular s frags P (fun x => In x l) -> exists m, f' (out_loc e path) = Ok (tsfile_text m) /\
          (nameable c s -> doc_named frags d (def_name d) -> forall is, read_module (tsfile_text m) is <-> is = tsfile_items m) /\
          kept s frags (tf_decls m) P (fun x => In x l) (def_name d))).
Proof.
  intros fuel wo a sched cf s out f' Lc rc c e ls root f gl Ls N S Gd Ho C Co Pt Ag Sc Th H.
  assert (E2E : forall path, is_source ls root path -> exists ms co, file_compiles fuel e f c s path ms co /\
     (forall m, In m ms -> ms_level m = CompileWarning) /\ f' (out_loc e path) = Ok (co_contents co)).
  { destruct Th as [One|[Pos Fl]].
    - apply (C49_end_to_end fuel wo a sched cf s out f' Lc Ls N S Gd Ho C One H).
    - apply (C49_flat fuel wo a sched cf s out f' Lc Ls N S Gd Ho C Pos Fl H). }
  intros path Sp. destruct (E2E path Sp) as (ms & co & Fc & _ & Eo).
  destruct Fc as (contents & d & im & ms0 & frags & ms1 & ws & op & Er & Ep & Ei & Ef & Ec & Ei' & _).
  assert (Ic : imported_fragments e f c path contents frags).
  { split.
    - intros n fd. exact (stage_frag_sound fuel e f c path contents im ms0 frags ms1 (Ho path) Ei Ef n fd).
    - intros t o fd. exact (stage_frag_complete fuel e f c path contents im ms0 frags ms1 (Ho path) Ei Ef Ag t o fd). }
  assert (Ff : forall n fd, aget n frags = Some fd -> composite s (fr_cond fd) /\ fine s frags (fr_cond fd) (fr_sels fd)).
  { intros n fd G. destruct (proj1 Ic n fd G) as (t & o & R & Hf & En).
    destruct (E2E t (Sc _ _ _ _ Sp Er R)) as (ms' & co' & Fc' & _).
    destruct Fc' as (o' & d' & im' & ms0' & frags' & ms1' & ws' & op' & Er' & Ep' & Ei2 & Ef' & Ec' & _).
    pose proof (reach_readable e f c path contents t o R) as Rt. rewrite Rt in Er'. injection Er' as <-.
    rewrite (proj2 (parse_file_frag e o t fd) Hf) in Ep'. injection Ep' as <-.
    assert (Oc : order_ok (cx_order (file_ctx e c s t frags'))) by (intros q A k; apply Ho).
    destruct (C06_accepted _ _ _ _ _ _ _ Oc Co Ec' eq_refl eq_refl) as [Cc Fi]. split; [exact Cc|].
    intros P' x W B. apply (Fi P' x W). eapply bad_weaken; [|exact B]. intros m Nm. cbn [file_ctx cx_frags].
    destruct (aget m frags') as [fd'|] eqn:Em; auto. exfalso.
    destruct (stage_frag_sound fuel e f c t o im' ms0' frags' ms1' (Ho t) Ei2 Ef' m fd' Em) as (t2 & o2 & R2 & H2 & E2).
    apply (proj2 Ic t2 o2 fd' (reach_trans _ _ _ _ _ _ _ _ _ R R2) H2). rewrite E2. exact Nm. }
  assert (Oc : order_ok (cx_order (file_ctx e c s path frags))) by (intros q A k; apply Ho).
  assert (Dd : env_parse e contents = Ok [d]).
  { unfold parse_file in Ep. destruct (env_parse e contents) as [[|d1 [|d2 ds]]|]; try discriminate. injection Ep as <-. reflexivity. }
  pose proof (compile_result _ Oc Co _ _ _ _ Ec) as R.
  inversion R as [| | | |P p l ws0 op0 Rt Cp X Ev Sh En Ek]; subst.
  exists contents, d, frags, P, l. split; auto. split; auto. split; auto. intros Su.
  assert (Dr : doc_root d = Some (P, l)). { pose proof (code_root_doc d Su) as E. rewrite Rt in E. cbn in E. congruence. }
  split; auto. destruct (C06_accepted _ _ _ _ _ _ _ Oc Co Ec Dr Su) as [_ Fi].
  assert (V : valid_sels s frags P l).
  { destruct (run_fine s frags (cc_deprecations c) Ff) as (_ & _ & Y). eapply Y; [exact X|exact Fi]. }
  split; auto. intros Rg.
  assert (Fv : frags_valid s frags l). { intros n fd Sn Gn. eapply valid_spreads; eauto. }
  destruct (C35_partial fuel (file_ctx e c s path frags) c (suborder (env_order e path) [2; 0]) d ws co P l Oc) as (m & Em & K); auto.
  - intros q A k. apply Ho.
  - exists op. auto.
  - exists m. destruct Em as [Em Er']. rewrite Eo, Em in *. split; auto.
Qed.
Print Assumptions C35_run.

(** *** A tree with an imported fragment, and trees for which selections are lost *)
(** fragment Broken on Query { pet { name zzz } } *)
Definition broken : fragdef := frag "Broken" "Query" [node 2 "pet" [leaf 2 "name"; leaf 2 "zzz"]].
(** Contents parse according to their last letter *)
Definition barn_env : env :=
  {| env_parse := fun c => match srev c with
       | String a _ => if Ascii.eqb a "G" then Ok [query good_sels] else if Ascii.eqb a "N" then Ok [DFrag pet_name]
                       else if Ascii.eqb a "S" then Ok [query split_sels] else if Ascii.eqb a "B" then Ok [query [spread 2 "Broken"]]
                       else if Ascii.eqb a "X" then Ok [DFrag broken] else Err "syntax error"
       | EmptyString => Err "syntax error" end;
     env_locate := fun p => p; env_write := fun _ => WOk; env_similar := fun _ _ => false;
     env_order := fun _ => plain_order |}.
Definition barn_world (ls : listing) (f : fs) : world :=
  {| wo_env := barn_env; wo_listing := ls; wo_ncpus := 4; wo_config := fun _ => CRNotFound "not found";
     wo_schema := fun _ => SRDecoded farm_json; wo_fs := f |}.
Definition pair_listing : listing := fun d =>
  if String.eqb d "." then Ok [Ok {| de_name := "g.graphql"; de_kind := Ok EkFile |}; Ok {| de_name := "n.graphql"; de_kind := Ok EkFile |}]
  else Err "not found".
(** ./g.graphql imports ./n.graphql *)
Definition pair_files : fs := files [("./g.graphql", import_line "n.graphql" +++ "G"); ("./n.graphql", "N")].

Lemma pair_source path : is_source pair_listing "." path -> path = "./g.graphql" \/ path = "./n.graphql".
Proof.
  intros [p H]. assert (K : forall p x, in_tree pair_listing "." p x -> x = WDir "." \/ x = WFile "./g.graphql" \/ x = WFile "./n.graphql").
  { clear. induction 1 as [|p x i y N IH E]; auto.
    destruct IH as [->|[->| ->]]; cbn in E; destruct i as [|[|[|i]]]; inversion E; auto. }
  destruct (K _ _ H) as [E|[E|E]]; inversion E; auto.
Qed.
Lemma imports_target c file contents n l t : imports_at c file contents n l t ->
  nth_error (lines contents) n = Some l /\ import_target c l (path_pop file) = Some t.
Proof.
  intros (q & (L & _) & Nm & R). split; auto. destruct (target_spec c l q (path_pop file) Nm) as (t' & E & R').
  destruct (resolves_fun c (path_pop file) q) as (t0 & _ & U). rewrite E, (U _ R), (U _ R'). reflexivity.
Qed.
Lemma pair_step file contents n l t : imports_at plain_config file contents n l t ->
  (file = "./g.graphql" /\ contents = import_line "n.graphql" +++ "G") \/ (file = "./n.graphql" /\ contents = "N") -> t = "./n.graphql".
Proof.
  intros H K. pose proof (imports_target _ _ _ _ _ _ H) as (L & E). destruct H as (q & _ & (rest & Eq & _) & _).
  destruct K as [[-> ->]|[-> ->]].
  - destruct n as [|[|[|n]]]; vm_compute in L; try discriminate; injection L as <-; [vm_compute in E; congruence|discriminate].
  - destruct n as [|[|n]]; vm_compute in L; try discriminate; injection L as <-. discriminate.
Qed.
Lemma pair_reach file contents t o : (file = "./g.graphql" /\ contents = import_line "n.graphql" +++ "G") \/ (file = "./n.graphql" /\ contents = "N") ->
  reach barn_env pair_files plain_config file contents t o -> t = "./n.graphql" /\ o = "N".
Proof.
  intros K R. induction R as [n l t o A Eo|mid mc n l t o R [-> ->] A Eo].
  - apply pair_step in A; auto. subst. split; auto. vm_compute in Eo. congruence.
  - apply pair_step in A; auto. subst. split; auto. vm_compute in Eo. congruence.
Qed.
Lemma pair_read path contents : is_source pair_listing "." path -> pair_files (env_locate barn_env path) = Ok contents ->
  (path = "./g.graphql" /\ contents = import_line "n.graphql" +++ "G") \/ (path = "./n.graphql" /\ contents = "N").
Proof. intros [-> | ->]%pair_source E; [left|right]; (split; [reflexivity|]); vm_compute in E |- *; congruence. Qed.
Lemma pair_is_source path : path = "./g.graphql" \/ path = "./n.graphql" -> is_source pair_listing "." path.
Proof.
  intros [-> | ->]; [exists [0]; apply (node_child _ _ [] (WDir ".") 0)|exists [1]; apply (node_child _ _ [] (WDir ".") 1)];
    [constructor|reflexivity|constructor|reflexivity].
Qed.

Lemma farm_inputs : inputs_consistent farm.
Proof.
  intros n t nm fs Gt Ed. exfalso. apply aget_In in Gt.
  assert (X : Forall (fun x : string * stype => match st_def (snd x) with TInputObject _ _ => False | _ => True end) farm) by (vm_compute; repeat constructor).
  rewrite Forall_forall in X. specialize (X _ Gt). cbn [snd] in X. rewrite Ed in X. exact X.
Qed.
Example C35_nonvacuous : exists out f',
  qlc 30 (barn_world pair_listing pair_files) (args_threads 1) (repeat 0 90) = Exited 0 out f' /\
  names_ok pair_listing /\ separate barn_env pair_listing plain_config "." pair_files /\
  self_contained barn_env pair_files plain_config pair_listing "." /\ paths_agree barn_env pair_files /\
  inputs_consistent farm /\ consistent farm /\ proper_types farm /\
  reach barn_env pair_files plain_config "./g.graphql" (import_line "n.graphql" +++ "G") "./n.graphql" "N".
Proof.
  do 2 eexists. split; [vm_compute; reflexivity|]. split; [|split; [|split; [|split; [|split; [|split; [|split]]]]]].
  - intros d es l. unfold pair_listing. destruct (String.eqb d "."); [|discriminate].
    intros H; inversion H; subst; clear H. cbn. intros H; inversion H; subst; clear H. cbn.
    split; [|repeat constructor; cbn; intuition discriminate]. constructor; [|constructor; [|constructor]]; repeat split; try discriminate; cbn; intuition discriminate.
  - split.
    + intros x y l Hx Hy R. assert (Ey : out_loc barn_env y = "./g.graphql.d.ts" \/ out_loc barn_env y = "./n.graphql.d.ts").
      { apply pair_source in Hy. destruct Hy as [-> | ->]; [left|right]; reflexivity. }
      assert (El : l = "./g.graphql" \/ l = "./n.graphql").
      { destruct R as [|contents file' contents' n l t E I A]; [apply pair_source; auto|]. right.
        pose proof (pair_read _ _ Hx E) as K. destruct I as [[-> ->]|R].
        - eapply (pair_step x contents); eauto.
        - destruct (pair_reach _ _ _ _ K R) as [-> ->]. eapply (pair_step _ _ _ _ _ A). auto. }
      destruct El as [-> | ->], Ey as [-> | ->]; discriminate.
    + intros x y Hx Hy. apply pair_source in Hx. apply pair_source in Hy. destruct Hx as [-> | ->], Hy as [-> | ->]; auto; discriminate.
  - intros path contents t o Sp Er R. pose proof (pair_read _ _ Sp Er) as K. destruct (pair_reach _ _ _ _ K R) as [-> _].
    apply pair_is_source. auto.
  - intros a b x y Pe Ea Eb. apply path_eqb_same in Pe. unfold pair_files, files in Ea, Eb. cbn [env_locate barn_env] in Ea, Eb. cbn [aget] in Ea, Eb.
    unfold eqb, EqB_string in Ea, Eb.
    destruct (String.eqb_spec a "./g.graphql") as [->|]; [|destruct (String.eqb_spec a "./n.graphql") as [->|]; [|discriminate]];
    (destruct (String.eqb_spec b "./g.graphql") as [->|]; [|destruct (String.eqb_spec b "./n.graphql") as [->|]; [|discriminate]]); congruence || discriminate.
  - exact farm_inputs.
  - exact farm_consistent.
  - exact farm_proper.
  - eapply (reach_one _ _ _ _ _ 0 (import_mark +++ "n.graphql" +++ String quote "")); [|vm_compute; reflexivity].
    exists "n.graphql". split; [split; [vm_compute; reflexivity|intros k l' Lt; lia]|]. split.
    + exists "". split; [reflexivity|]. intros X. inversion X.
    + apply (resolves_root plain_config _ "n.graphql").
      * intros r (p & X & _). discriminate.
      * intros r. discriminate.
Qed.

(** ./b.graphql imports frag.gql, which is not a source file and selects an unknown field: exit code 0
    although the whole selection of [pet] is missing in the output *)
Definition lone_listing (name : string) : listing := fun d =>
  if String.eqb d "." then Ok [Ok {| de_name := name; de_kind := Ok EkFile |}] else Err "not found".
Definition broken_files : fs := files [("./b.graphql", import_line "frag.gql" +++ "B"); ("./frag.gql", "X")].
Definition empty_module : tsfile :=
  {| tf_node := "QueryDocumentNode"; tf_node_from := cc_docnode_module plain_config; tf_globals := [];
     tf_globals_from := cc_globals_module plain_config; tf_decls := [DObj "Q" []]; tf_args := ["Q"; "never"] |}.

Theorem C35_refuted : exists out f',
  qlc 30 (barn_world (lone_listing "b.graphql") broken_files) (args_threads 1) (repeat 0 90) = Exited 0 out f' /\
  f' (out_loc barn_env "./b.graphql") = Ok (tsfile_text empty_module) /\
  imported_fragments barn_env broken_files plain_config "./b.graphql" (import_line "frag.gql" +++ "B") [("Broken", broken)] /\
  key farm [("Broken", broken)] "Query" (fun x => In x [spread 2 "Broken"]) "Query" "pet" /\
  ~ kept farm [("Broken", broken)] (tf_decls empty_module) "Query" (fun x => In x [spread 2 "Broken"]) "Q".
Proof.
  assert (Ky : focc farm [("Broken", broken)] "Query" "Query" (fun x => In x [spread 2 "Broken"]) "pet"
    (match field_get farm "Query" "pet" with Some f => f | None => root_field end) [leaf 2 "name"; leaf 2 "zzz"]).
  { eexists "Query", "pet". split; [|apply field_get_ok; reflexivity].
    eapply (occ_spread _ _ _ _ _ (at_pos 2 3) "Broken" []); [left; reflexivity|reflexivity|apply possibles_ok; left; reflexivity|].
    eapply (occ_field _ _ _ _ _ _ None). left. reflexivity. }
  do 2 eexists. split; [vm_compute; reflexivity|]. split; [vm_compute; reflexivity|]. split; [split|split].
  - intros n fd E. cbn [aget] in E. unfold eqb, EqB_string in E. destruct (String.eqb_spec n "Broken") as [->|]; [|discriminate]. injection E as <-.
    exists "./frag.gql", "X". split; [|split; reflexivity].
    eapply (reach_one _ _ _ _ _ 0 (import_mark +++ "frag.gql" +++ String quote "")); [|vm_compute; reflexivity].
    exists "frag.gql". split; [split; [vm_compute; reflexivity|intros k l' Lt; lia]|]. split.
    + exists "". split; [reflexivity|]. intros X. inversion X.
    + apply (resolves_root plain_config _ "frag.gql"); [intros r (p & X & _); discriminate|discriminate].
  - intros t o fd R Hf. assert (K : fr_name fd = "Broken").
    { enough (K : o = "X") by (subst; vm_compute in Hf; injection Hf as <-; reflexivity).
      assert (St : forall file contents n l t, imports_at plain_config file contents n l t ->
        (file = "./b.graphql" /\ contents = import_line "frag.gql" +++ "B") \/ (file = "./frag.gql" /\ contents = "X") -> t = "./frag.gql").
      { clear. intros file contents n l t H K. pose proof (imports_target _ _ _ _ _ _ H) as (L & E). destruct H as (q & _ & (rest & Eq & _) & _).
        destruct K as [[-> ->]|[-> ->]].
        - destruct n as [|[|[|n]]]; vm_compute in L; try discriminate; injection L as <-; [vm_compute in E; congruence|discriminate].
        - destruct n as [|[|n]]; vm_compute in L; try discriminate; injection L as <-. discriminate. }
      enough (t = "./frag.gql" /\ o = "X") by tauto. clear Hf Ky.
      induction R as [n l t o A Eo|mid mc n l t o R [-> ->] A Eo]; (apply St in A; [|auto]); subst; (split; auto); vm_compute in Eo; congruence. }
    rewrite K. discriminate.
  - eexists _, _. exact Ky.
  - intros K. inversion K as [P M main alts A H]; subst.
    destruct (H "Query" (proj1 (possibles_ok farm "Query" "Query") (or_introl eq_refl))) as (n & ms & _ & I & Hk).
    cbn in I. destruct I as [I|[]]. injection I as <- <-. destruct (Hk _ _ _ Ky) as (m & [] & _).
Qed.
Print Assumptions C35_refuted.

(** Without imports: ./s.graphql is a valid document, but what it selects for dogs is lost *)
Theorem C35_refuted_sharing : exists out f',
  qlc 30 (barn_world (lone_listing "s.graphql") (files [("./s.graphql", "S")])) (args_threads 1) (repeat 0 90) = Exited 0 out f' /\
  f' (out_loc barn_env "./s.graphql") = Ok (tsfile_text split_module) /\ valid_sels farm [] "Query" split_sels /\
  ~ kept farm [] (tf_decls split_module) "Query" (fun x => In x split_sels) "Q".
Proof.
  do 2 eexists. split; [vm_compute; reflexivity|]. split; [vm_compute; reflexivity|]. split; [exact split_valid|]. intros K.
  assert (Al : forall main alts, alternatives (tf_decls split_module) main alts -> alts = [main]).
  { intros main alts [A|A]; auto. cbn in A. intuition discriminate. }
  assert (F1 : focc farm [] "Query" "Query" (fun x => In x split_sels) "pet" (match field_get farm "Query" "pet" with Some f => f | None => root_field end)
     [on 3 "Cat" [node 3 "owner" [leaf 3 "name"]]; on 4 "Dog" [node 4 "owner" [leaf 4 "mood"]]; on 5 "Eel" [node 5 "owner" [leaf 5 "name"]]]).
  { eexists _, _. split; [eapply (occ_field _ _ _ _ _ _ None); left; reflexivity|]. apply field_get_ok. reflexivity. }
  inversion K as [P M main alts A X]; subst. apply Al in A. subst alts.
  destruct (X "Query" (proj1 (possibles_ok farm "Query" "Query") (or_introl eq_refl))) as (n & ms & [[<-|[]] _] & I & Y).
  cbn in I. destruct I as [I|[I|[I|[]]]]; try discriminate. injection I as <-.
  destruct (Y _ _ _ F1) as (m & [<-|[]] & _ & Z). destruct Z as (sub & Es & K2); [apply compositeb_ok; reflexivity|]. injection Es as <-. clear K X Y.
  cbn [ft_name sf_type field_get] in K2. clear F1.
  change (kept farm [] (tf_decls split_module) "Pet" (merged (focc farm [] "Query" "Query" (fun x => In x split_sels)) "pet" "Pet") "Q_pet") in K2.
  set (M2 := merged _ "pet" "Pet") in K2.
  assert (F2 : focc farm [] "Dog" "Pet" M2 "owner" (match field_get farm "Dog" "owner" with Some f => f | None => root_field end) [leaf 4 "mood"]).
  { eexists "Dog", "owner". split; [|apply field_get_ok; reflexivity]. eapply (occ_inline _ _ _ _ _ (at_pos 4 3) "Dog" []).
    - eexists _, _. split; [eexists _, _; split; [eapply (occ_field _ _ _ _ _ _ None); left; reflexivity|apply field_get_ok; reflexivity]|].
      split; [reflexivity|]. right. left. reflexivity.
    - apply possibles_ok. left; reflexivity.
    - eapply (occ_field _ _ _ _ _ _ None); left; reflexivity. }
  inversion K2 as [P M main alts A X]; subst. apply Al in A. subst alts.
  destruct (X "Dog" (proj1 (possibles_ok farm "Pet" "Dog") (or_introl eq_refl))) as (n & ms & [[<-|[]] _] & I & Y).
  cbn in I. destruct I as [I|[I|[I|[]]]]; try discriminate. injection I as <-.
  destruct (Y _ _ _ F2) as (m & [<-|[]] & _ & Z). destruct Z as (sub & Es & K3); [apply compositeb_ok; reflexivity|]. injection Es as <-. clear X Y K2.
  change (kept farm [] (tf_decls split_module) "User" (merged (focc farm [] "Dog" "Pet" M2) "owner" "User") "Q_pet_owner") in K3.
  inversion K3 as [P M main alts A X]; subst. apply Al in A. subst alts.
  destruct (X "User" (proj1 (possibles_ok farm "User" "User") (or_introl eq_refl))) as (n & ms & [[<-|[]] _] & I & Z).
  cbn in I. destruct I as [I|[I|[I|[]]]]; try discriminate. injection I as <-.
  assert (F3 : focc farm [] "User" "User" (merged (focc farm [] "Dog" "Pet" M2) "owner" "User") "mood" (match field_get farm "User" "mood" with Some f => f | None => root_field end) []).
  { eexists "User", "mood". split; [|apply field_get_ok; reflexivity].
    eapply (occ_field _ _ _ _ _ _ None). eexists _, _. split; [exact F2|]. split; [reflexivity|left; reflexivity]. }
  destruct (Z _ _ _ F3) as (m & [<-|[]] & Em & _). discriminate.
Qed.
Print Assumptions C35_refuted_sharing.
