(** C21: the readonly option. *)
From Verif Require Import Written SelWorlds.

(** A configuration, a member and a declaration with the option set to [b] *)
Definition ro_config (b : bool) (c : cconfig) : cconfig :=
  {| cc_root_dir := cc_root_dir c; cc_deprecations := cc_deprecations c; cc_readonly := b;
     cc_bottom := cc_bottom c; cc_import_prefix := cc_import_prefix c;
     cc_globals_module := cc_globals_module c; cc_docnode_module := cc_docnode_module c |}.
Definition ro_member (b : bool) (m : member) : member :=
  {| m_comment := m_comment m; m_readonly := b; m_name := m_name m; m_optional := m_optional m; m_type := m_type m |}.
Definition ro_decl (b : bool) (d : decl) : decl :=
  match d with DObj n ms => DObj n (List.map (ro_member b) ms) | DAlias n alts => DAlias n alts end.
Definition decl_members (d : decl) : list member := match d with DObj _ ms => ms | DAlias _ _ => [] end.

(** *** Rendering with the option changed *)
Definition ro_ds (b : bool) (r : res ts_error (list decl * list string)) : res ts_error (list decl * list string) :=
  match r with Ok (ds, us) => Ok (List.map (ro_decl b) ds, us) | Err e => Err e end.
Definition ro_f (b : bool) (c : cconfig) (f : irfield) : Prop := forall names path,
  r_field (ro_config b c) f names path =
  match r_field c f names path with Ok (ds, m, us) => Ok (List.map (ro_decl b) ds, ro_member b m, us) | Err e => Err e end.
Definition ro_t (b : bool) (c : cconfig) (t : irtype) : Prop := forall names path,
  r_type (ro_config b c) t names path =
  match r_type c t names path with Ok (ds, e, us) => Ok (List.map (ro_decl b) ds, e, us) | Err e => Err e end.
Definition ro_c (b : bool) (c : cconfig) (x : ircomplex) : Prop := forall names path,
  r_complex (ro_config b c) x names path = ro_ds b (r_complex c x names path).

Lemma ro_collection b c xs main : Forall (ro_c b c) xs ->
  r_collection (List.map (r_prepare (ro_config b c)) xs) main = ro_ds b (r_collection (List.map (r_prepare c) xs) main).
Proof.
  intros F.
  assert (Ei : forall l, List.map rp_ids (List.map (r_prepare (ro_config b c)) l) = List.map rp_ids (List.map (r_prepare c) l)).
  { intros l. rewrite !map_map. reflexivity. }
  assert (Ec : forall l first, common_ids first (List.map (r_prepare (ro_config b c)) l) = common_ids first (List.map (r_prepare c) l)).
  { unfold common_ids. induction l as [|x l IH]; intros first; cbn [List.map fold_left]; auto. }
  assert (Er : forall cm l, repeated_names cm (List.map (r_prepare (ro_config b c)) l) = repeated_names cm (List.map (r_prepare c) l)).
  { intros cm l. unfold repeated_names. f_equal. induction l as [|x l IH]; cbn [List.map filter]; auto.
    cbn [r_prepare rp_ids]. destruct (set_eqb cm (field_ids x)); cbn; congruence. }
  assert (Ep : forall rep l, Forall (ro_c b c) l -> forall defs us names r0,
    r_possibilities (List.map (r_prepare (ro_config b c)) l) rep main (List.map (ro_decl b) defs) us names
      (option_map (r_prepare (ro_config b c)) r0) =
    match r_possibilities (List.map (r_prepare c) l) rep main defs us names (option_map (r_prepare c) r0) with
    | Ok (ds, u, ns, r) => Ok (List.map (ro_decl b) ds, u, ns, option_map (r_prepare (ro_config b c)) (last_repeated rep l r0))
    | Err e => Err e
    end).
  { intros rep. induction l as [|x l IH]; intros Fl defs us names r0; cbn [List.map r_possibilities]; [reflexivity|].
    inversion Fl as [|? ? Hx Fl']; subst.
    cbn [r_prepare rp_name rp_render]. unfold last_repeated. cbn [fold_left]. destruct (smem (irc_name x) rep) eqn:Es.
    - apply (IH Fl' defs us names (Some x)).
    - rewrite (Hx [irc_name x] (main +++ "_" +++ irc_name x)).
      destruct (r_complex c x [irc_name x] (main +++ "_" +++ irc_name x)) as [[d u]|e]; cbn [ro_ds]; [|reflexivity].
      rewrite <- map_app. rewrite IH by auto. reflexivity. }
  destruct xs as [|x [|y xs]].
  - reflexivity.
  - cbn. inversion F; subst. auto.
  - unfold r_collection. cbn [List.map].
    change (r_prepare c y :: List.map (r_prepare c) xs) with (List.map (r_prepare c) (y :: xs)).
    change (r_prepare c x :: List.map (r_prepare c) (y :: xs)) with (List.map (r_prepare c) (x :: y :: xs)).
    change (r_prepare (ro_config b c) y :: List.map (r_prepare (ro_config b c)) xs) with (List.map (r_prepare (ro_config b c)) (y :: xs)).
    change (r_prepare (ro_config b c) x :: List.map (r_prepare (ro_config b c)) (y :: xs)) with (List.map (r_prepare (ro_config b c)) (x :: y :: xs)).
    rewrite Ec, Er, !map_length. change (rp_ids (r_prepare (ro_config b c) x)) with (rp_ids (r_prepare c x)).
    set (rep := repeated_names _ _).
    destruct (Nat.eqb _ _).
    + cbn [r_prepare rp_render]. inversion F; subst. auto.
    + specialize (Ep rep (x :: y :: xs) F [] [] [] None). cbn [option_map] in Ep.
      change (List.map (ro_decl b) []) with (@nil decl) in Ep.
      rewrite Ep.
      destruct (r_possibilities (List.map (r_prepare c) (x :: y :: xs)) rep main [] [] [] None) as [[[[ds us] ns] r]|e] eqn:E; [|reflexivity].
      pose proof (possibilities_rep c main rep (x :: y :: xs) [] [] [] None _ _ _ _ E) as Hr.
      destruct (last_repeated rep (x :: y :: xs) None) as [z|] eqn:Ez; cbn [option_map] in Hr |- *; subst r.
      * destruct (fold_last_in _ _ _ _ Ez) as [H|[H _]]; [discriminate|]. cbn [r_prepare rp_render].
        rewrite Forall_forall in F. rewrite (F z H).
        destruct (r_complex c z _ _) as [[d u]|e]; cbn [ro_ds]; [|reflexivity]. rewrite !map_app. reflexivity.
      * cbn [ro_ds]. rewrite map_app. reflexivity.
Qed.

Lemma ro_render b c : (forall f, ro_f b c f) /\ (forall t, ro_t b c t) /\ (forall x, ro_c b c x).
Proof.
  apply (ir_mutind (ro_f b c) (ro_t b c) (ro_c b c)).
  - intros k d dp l r t IH names path. rewrite !r_field_eq, IH.
    destruct (r_type c t names (path +++ "_" +++ k)) as [[[ds e] u]|e]; reflexivity.
  - intros names path. reflexivity.
  - intros n names path. reflexivity.
  - intros sc names path. reflexivity.
  - intros xs F names path. rewrite !r_type_complex, ro_collection by auto.
    destruct (r_collection (List.map (r_prepare c) xs) path) as [[ds u]|e]; reflexivity.
  - intros n fs F names path. rewrite !r_complex_eq.
    assert (X : forall defs us props,
      r_fields (ro_config b c) names path fs (List.map (ro_decl b) defs) us (List.map (ro_member b) props) =
      ro_ds b (r_fields c names path fs defs us props)).
    { induction F as [|f fs Hf F IH]; intros defs us props; cbn [r_fields].
      - cbn [ro_ds]. rewrite map_app. reflexivity.
      - rewrite Hf. destruct (r_field c f names path) as [[[ds m] u]|e]; [|reflexivity].
        rewrite <- map_app. change [ro_member b m] with (List.map (ro_member b) [m]). rewrite <- map_app. apply IH. }
    apply (X [] [] []).
Qed.

Lemma ro_variables b c s op : r_variables (ro_config b c) s op = r_variables c s op.
Proof.
  unfold r_variables. destruct (op_variables op) as [vs|]; auto.
  assert (E : r_vars (ro_config b c) s vs = r_vars c s vs).
  { induction vs as [|v vs IH]; cbn [r_vars]; auto. rewrite IH. reflexivity. }
  rewrite E. reflexivity.
Qed.
Lemma ro_members c xs main ds us : rnd_coll c xs main ds us ->
  forall x m, In x ds -> In m (decl_members x) -> m_readonly m = cc_readonly c.
Proof.
  intros R. pose proof (rnd_mutind c
    (fun names path t ds e us _ => forall x m, In x ds -> In m (decl_members x) -> m_readonly m = cc_readonly c)
    (fun names path fs ds ms us _ => (forall x m, In x ds -> In m (decl_members x) -> m_readonly m = cc_readonly c) /\ forall m, In m ms -> m_readonly m = cc_readonly c)
    (fun pl ds us _ => forall x m, In x ds -> In m (decl_members x) -> m_readonly m = cc_readonly c)
    (fun xs main ds us _ => forall x m, In x ds -> In m (decl_members x) -> m_readonly m = cc_readonly c)) as H.
  destruct H as (_ & _ & _ & H); try (intros; contradiction); eauto.
  - intros names path. split; intros; contradiction.
  - intros names path k d dp l r t fs ds0 e us0 ds' ms us' _ IH _ [IH1 IH2]. split.
    + intros x m I. apply in_app_or in I. destruct I; eauto.
    + intros m [<-|I]; auto.
  - intros T fs names path pl ds0 ms us0 ds' us' _ [IH1 IH2] _ IH x m I J. apply in_app_or in I. destruct I as [I|I]; eauto.
    apply in_app_or in I. destruct I as [I|[<-|[]]]; eauto.
  - intros xs0 main0 ds0 us0 _ _ IH x m I J. apply in_app_or in I. destruct I as [I|[<-|[]]]; eauto. destruct J.
Qed.

(** The module consists of declarations [ds] of result types and possibly one of the variables; every
    property of a result type carries the option, no variable does; and compiling with the option set
    to [b] gives the same diagnostics, the same global types, and the same module except for the
    option on the properties of [ds] *)
Theorem C21_readonly : forall fuel cx c o d ws co,
  order_ok (cx_order cx) -> order_ok o -> consistent (cx_schema cx) -> document_file fuel cx c o d ws co ->
  exists m ds vds, written_as cx c d co m /\ tf_decls m = ds ++ vds /\ ds <> [] /\
    (forall x, In x ds -> decl_name x = def_name d \/ exists r, decl_name x = def_name d +++ "_" +++ r) /\
    (forall x, In x vds -> decl_name x = def_name d +++ "Variables") /\
    (forall x m, In x ds -> In m (decl_members x) -> m_readonly m = cc_readonly c) /\
    (forall x m, In x vds -> In m (decl_members x) -> m_readonly m = false) /\
    forall b co', document_file fuel cx (ro_config b c) o d ws co' <->
      co_globals co' = co_globals co /\
      co_contents co' = tsfile_text {| tf_node := tf_node m; tf_node_from := tf_node_from m; tf_globals := tf_globals m;
        tf_globals_from := tf_globals_from m; tf_decls := List.map (ro_decl b) ds ++ vds; tf_args := tf_args m |}.
Proof.
  intros fuel cx c o d ws co O O' Co (op & Hd & Hi). pose proof (compile_result cx O Co _ _ _ _ Hd) as R.
  inversion R as [| | | |P p l ws0 op0 Rt C X Ev Sh En Ek]; subst.
  pose proof Hi as Hi'. rewrite (compile_ir_eq c o O') in Hi.
  destruct (r_collection (List.map (r_prepare c) (op_collection op)) (op_name op)) as [[ds us]|e] eqn:Er; [|discriminate].
  destruct (r_variables c (cx_schema cx) op) as [[vds vus]|e] eqn:Ev'; [|discriminate]. cbn zeta in Hi. inversion Hi; subst co.
  pose proof (rendered c _ P _ _ _ _ Sh Er) as Rn. rewrite En in Rn.
  exists (file_of c op (ds ++ vds) (sunion [] (us ++ vus))), ds, vds.
  split; [exact (written_ok fuel cx c d ws
    {| co_contents := tsfile_text (file_of c op (ds ++ vds) (sunion [] (us ++ vus))); co_globals := sunion [] (us ++ vus) |}
    op P ds us vds vus O Co Hd En Ev Sh Rn Ev' eq_refl eq_refl)|].
  split; [reflexivity|]. split; [eapply r_collection_nonempty; eauto|].
  split; [intros x I; eapply rnd_coll_names; eauto|].
  assert (Vd : vds = [] \/ exists ms, vds = [DObj (op_name op +++ "Variables") (List.map var_member ms)]).
  { unfold r_variables in Ev'. destruct (op_variables op); [|inversion Ev'; auto].
    destruct (r_vars _ _ _) as [[r u]|]; inversion Ev'; subst. eauto. }
  split; [|split; [|split]].
  - intros x I. destruct Vd as [->|(ms & ->)]; [destruct I|]. destruct I as [<-|[]]. cbn. rewrite En. reflexivity.
  - eapply ro_members; eauto.
  - intros x m I J. destruct Vd as [->|(ms & ->)]; [destruct I|]. destruct I as [<-|[]]. cbn in J.
    apply in_map_iff in J. destruct J as (y & <- & _). reflexivity.
  - intros b co'.
    assert (E : compile_ir (ro_config b c) o (cx_schema cx) op =
      Ok {| co_contents := tsfile_text (file_of c op (List.map (ro_decl b) ds ++ vds) (sunion [] (us ++ vus)));
            co_globals := sunion [] (us ++ vus) |}).
    { rewrite (compile_ir_eq (ro_config b c) o O'). rewrite ro_collection, Er, ro_variables, Ev'; [reflexivity|].
      apply Forall_forall. intros. apply ro_render. }
    split.
    + intros (op' & Hd' & Hi''). rewrite Hd in Hd'. inversion Hd'; subst op'. rewrite E in Hi''. inversion Hi''; subst. auto.
    + intros [E1 E2]. exists op. split; auto. rewrite E. f_equal. destruct co' as [a g]. cbn in E1, E2. rewrite E1, E2. reflexivity.
Qed.
Print Assumptions C21_readonly.

(** Non-vacuity: a query with one property, with and without the option *)
Example C21_nonvacuous : exists ws co ws' co',
  document_file 20 (zoo_cx false []) (cconfig_of (merge_config 4 no_args config_default)) plain_order (query [leaf 2 "old"; node 3 "pet" [leaf 4 "name"]]) ws co /\
  document_file 20 (zoo_cx false []) (ro_config false (cconfig_of (merge_config 4 no_args config_default))) plain_order (query [leaf 2 "old"; node 3 "pet" [leaf 4 "name"]]) ws' co' /\
  co_contents co <> co_contents co'.
Proof.
  do 4 eexists. split; [|split].
  - eexists. split; vm_compute; reflexivity.
  - eexists. split; vm_compute; reflexivity.
  - discriminate.
Qed.
