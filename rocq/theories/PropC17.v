(** C17: generated files are closed. *)
From Verif Require Import Written SelWorlds.

(** Names of TypeScript's own types *)
Definition builtin (n : string) : Prop := In n ["string"; "number"; "boolean"; "any"].

(** [n] is how the configuration writes a custom scalar of the schema *)
Definition written_scalar (c : cconfig) (x n : string) : Prop :=
  match cc_bottom c with BottomAny => False | BottomReal => n = x | BottomPrefix p => n = p +++ x end.
Definition custom_scalar (c : cconfig) (s : schema) (n : string) : Prop :=
  exists x, written_scalar c x n /\
    ((exists T k f, field_of s T k f /\ ft_def (sf_type f) = FDScalar (ScCustom x)) \/
     exists t sc, get_type s x = Some t /\ st_def t = TScalar sc).

Definition declared (ds : list decl) (n : string) : Prop := In n (List.map decl_name ds).
Definition uses (ds : list decl) (n : string) : Prop := exists d, In d ds /\ In n (decl_uses d).

Definition closed_in (c : cconfig) (s : schema) (ds : list decl) (us : list string) (n : string) : Prop :=
  declared ds n \/ builtin n \/ custom_scalar c s n \/ In n us.

Lemma names_mod m e : forall n, In n (texpr_names (mod_expr m e)) <-> In n (texpr_names e).
Proof. intros n. destruct m; cbn; rewrite ?app_nil_r; tauto. Qed.
Lemma names_ptd rest last e : forall n, In n (texpr_names (ptd_expr rest last e)) <-> In n (texpr_names e).
Proof.
  unfold ptd_expr. intros n. rewrite <- (names_mod last e n). generalize (mod_expr last e).
  induction rest as [|m l IH]; intros e0; cbn [fold_left]; [tauto|]. rewrite IH, names_mod. cbn. tauto.
Qed.
Lemma names_union names n : ~ In n (texpr_names (lit_union names)).
Proof.
  destruct names as [|x l]; cbn [lit_union]; [intros []|].
  assert (X : forall l e, texpr_names (fold_left (fun e x => XUnion e (XLit x)) l e) = texpr_names e).
  { induction l0 as [|y l0 IH]; intros e; cbn [fold_left]; auto. rewrite IH. cbn. apply app_nil_r. }
  rewrite X. intros [].
Qed.
Lemma scalar_known c s T k f sc : field_of s T k f -> ft_def (sf_type f) = FDScalar sc ->
  builtin (scalar_ts c sc) \/ custom_scalar c s (scalar_ts c sc).
Proof.
  intros Fo E. destruct sc; cbn [scalar_ts]; try (left; cbn; tauto).
  unfold custom_scalar_name, custom_scalar, written_scalar.
  destruct (cc_bottom c) as [| |p]; [left; cbn; tauto| |]; right; exists name; (split; [reflexivity|]); left; eauto.
Qed.
Lemma closed_app c s ds ds' us us' n : closed_in c s ds us n -> closed_in c s (ds ++ ds') (us ++ us') n.
Proof.
  unfold closed_in, declared. rewrite map_app, !in_app_iff. tauto.
Qed.
Lemma closed_app_r c s ds ds' us us' n : closed_in c s ds' us' n -> closed_in c s (ds ++ ds') (us ++ us') n.
Proof.
  unfold closed_in, declared. rewrite map_app, !in_app_iff. tauto.
Qed.
Lemma uses_app ds ds' n : uses (ds ++ ds') n <-> uses ds n \/ uses ds' n.
Proof.
  unfold uses. split.
  - intros (d & I & U). apply in_app_or in I. destruct I; eauto.
  - intros [(d & I & U)|(d & I & U)]; exists d; split; auto; apply in_or_app; auto.
Qed.

Definition shaped (s : schema) (t : irtype) : Prop := exists T k f, field_of s T k f /\ ty_shape s f t.
Lemma shape_fields s fs : fields_shape s fs -> forall k d dp l r t, In (IRField k d dp l r t) fs -> shaped s t.
Proof.
  intros Sh k d dp l r t I. inversion Sh as [es Ss Nd Ff Ty]; subst. apply in_map_iff in I.
  destruct I as ([[k' f] t'] & E & I). inversion E; subst. destruct (Ff _ _ _ I) as (T & n & Fo). exists T, n, f. eauto.
Qed.
Lemma plan_in xs main : forall T fs names path, In (IRComplex T fs, names, path) (plan xs main) -> In (IRComplex T fs) xs.
Proof.
  intros T fs names path I. unfold plan in I. destruct (own xs) as [|y ys] eqn:Eo.
  - destruct xs as [|x xs]; [destruct I|]. destruct I as [E|[]]. injection E as -> _ _. left; auto.
  - rewrite <- Eo in I. apply in_app_or in I. destruct I as [I|I].
    + apply in_map_iff in I. destruct I as (z & E & I). injection E as -> _ _. apply own_in in I. tauto.
    + destruct (rev (shared xs)) as [|z zs] eqn:Ez; [destruct I|]. destruct I as [E|[]]. injection E as -> _ _.
      assert (J : In (IRComplex T fs) (shared xs)) by (apply in_rev; rewrite Ez; left; auto). apply shared_in in J. tauto.
Qed.

Lemma rnd_closed c s :
  (forall names path t ds e us, rnd_type c names path t ds e us -> shaped s t ->
     (forall n, uses ds n -> closed_in c s ds us n) /\ (forall n, In n (texpr_names e) -> closed_in c s ds us n) /\
     (forall n, In n us -> uses ds n \/ In n (texpr_names e))) /\
  (forall names path fs ds ms us, rnd_fields c names path fs ds ms us ->
     (forall k d dp l r t, In (IRField k d dp l r t) fs -> shaped s t) ->
     (forall n, uses ds n -> closed_in c s ds us n) /\ (forall n, In n (flat_map (fun m => texpr_names (m_type m)) ms) -> closed_in c s ds us n) /\
     (forall n, In n us -> uses ds n \/ In n (flat_map (fun m => texpr_names (m_type m)) ms))) /\
  (forall pl ds us, rnd_plan c pl ds us -> (forall T fs names path, In (IRComplex T fs, names, path) pl -> fields_shape s fs) ->
     (forall n, uses ds n -> closed_in c s ds us n) /\ (forall n, In n (List.map plan_name pl) -> declared ds n) /\
     (forall n, In n us -> uses ds n)) /\
  (forall xs main ds us, rnd_coll c xs main ds us -> forall P, coll_shape s P xs ->
     (forall n, uses ds n -> closed_in c s ds us n) /\ declared ds main /\ (forall n, In n us -> uses ds n)).
Proof.
  apply (rnd_mutind c
    (fun names path t ds e us _ => shaped s t ->
       (forall n, uses ds n -> closed_in c s ds us n) /\ (forall n, In n (texpr_names e) -> closed_in c s ds us n) /\
       (forall n, In n us -> uses ds n \/ In n (texpr_names e)))
    (fun names path fs ds ms us _ => (forall k d dp l r t, In (IRField k d dp l r t) fs -> shaped s t) ->
       (forall n, uses ds n -> closed_in c s ds us n) /\ (forall n, In n (flat_map (fun m => texpr_names (m_type m)) ms) -> closed_in c s ds us n) /\
       (forall n, In n us -> uses ds n \/ In n (flat_map (fun m => texpr_names (m_type m)) ms)))
    (fun pl ds us _ => (forall T fs names path, In (IRComplex T fs, names, path) pl -> fields_shape s fs) ->
       (forall n, uses ds n -> closed_in c s ds us n) /\ (forall n, In n (List.map plan_name pl) -> declared ds n) /\
       (forall n, In n us -> uses ds n))
    (fun xs main ds us _ => forall P, coll_shape s P xs ->
       (forall n, uses ds n -> closed_in c s ds us n) /\ declared ds main /\ (forall n, In n us -> uses ds n))).
  - intros names path _. split; [intros n (d & [] & _)|]. split; [intros n I; destruct (names_union _ _ I)|intros n []].
  - intros names path n _. split; [intros m (d & [] & _)|]. split.
    + intros m [<-|[]]. right. right. right. left; auto.
    + intros m [<-|[]]. right. left; auto.
  - intros names path sc (T & k & f & Fo & Sh). split; [intros m (d & [] & _)|]. split; [|intros m []].
    intros m [<-|[]]. inversion Sh; subst. destruct (scalar_known c s T k f sc Fo) as [H0|H0]; auto; unfold closed_in; auto.
  - intros names path xs ds us _ IH (T & k & f & Fo & Sh). inversion Sh; subst.
    destruct (IH _ ltac:(eassumption)) as (I1 & I2 & I3). split; auto. split.
    + intros n [<-|[]]. left. auto.
    + intros n I. left. auto.
  - intros names path _. split; [intros n (d & [] & _)|]. split; intros n [].
  - intros names path k d dp l r t fs ds e us ds' ms us' _ IH _ IH' Sh.
    destruct (IH (Sh k d dp l r t (or_introl eq_refl))) as (I1 & I2 & I3).
    destruct (IH' (fun k d dp l r t I => Sh k d dp l r t (or_intror I))) as (J1 & J2 & J3).
    split; [|split].
    + intros n U. apply uses_app in U. destruct U as [U|U]; [apply closed_app|apply closed_app_r]; auto.
    + intros n I. cbn [flat_map] in I. apply in_app_or in I. destruct I as [I|I].
      * cbn [r_member m_type] in I. apply names_ptd in I. apply closed_app. auto.
      * apply closed_app_r. auto.
    + intros n I. rewrite uses_app. cbn [flat_map]. rewrite in_app_iff. cbn [r_member m_type]. rewrite names_ptd.
      apply in_app_or in I. destruct I as [I|I]; [apply I3 in I|apply J3 in I]; tauto.
  - intros _. split; [intros n (d & [] & _)|]. split; intros n [].
  - intros T fs names path pl ds ms us ds' us' _ IH _ IH' Sh.
    destruct (IH (shape_fields s fs (Sh _ _ _ _ (or_introl eq_refl)))) as (I1 & I2 & I3).
    destruct (IH' (fun T fs names path I => Sh T fs names path (or_intror I))) as (J1 & J2 & J3).
    assert (D0 : declared (ds ++ [DObj path ms]) path).
    { unfold declared. rewrite map_app, in_app_iff. right. cbn. auto. }
    split; [|split].
    + intros n U. apply uses_app in U. destruct U as [U|U]; [|apply closed_app_r; auto]. apply closed_app.
      rewrite <- (app_nil_r us). apply closed_app.
      apply uses_app in U. destruct U as [U|(x & [<-|[]] & U)]; auto.
    + intros n [<-|I]; unfold declared in *; rewrite map_app, in_app_iff; [left; auto|right; auto].
    + intros n I. rewrite !uses_app. apply in_app_or in I. destruct I as [I|I]; [|auto].
      left. destruct (I3 n I) as [U|U]; auto. right. exists (DObj path ms). split; [left; auto|]. exact U.
  - intros xs main ds us Ne Ho _ IH P Sh. inversion Sh as [P0 xs0 So Nd Po Fs]; subst.
    destruct IH as (I1 & I2 & I3). { intros T fs names path I. apply plan_in in I. eauto. }
    split; auto. split; auto. apply I2. unfold plan. rewrite Ho. destruct xs; [congruence|]. cbn. auto.
  - intros xs main ds us Ho _ IH P Sh. inversion Sh as [P0 xs0 So Nd Po Fs]; subst.
    destruct IH as (I1 & I2 & I3). { intros T fs names path I. apply plan_in in I. eauto. }
    split; [|split].
    + intros n U. rewrite <- (app_nil_r us). apply closed_app. apply uses_app in U. destruct U as [U|(x & [<-|[]] & U)]; auto.
      left. auto.
    + unfold declared. rewrite map_app, in_app_iff. right. cbn. auto.
    + intros n I. apply uses_app. auto.
Qed.

Lemma vars_closed c s op vds vus : r_variables c s op = Ok (vds, vus) ->
  (forall n, uses vds n -> builtin n \/ custom_scalar c s n \/ In n vus) /\ (forall n, In n vus -> uses vds n) /\
  (op_variables op = None \/ declared vds (op_name op +++ "Variables")).
Proof.
  unfold r_variables. destruct (op_variables op) as [vs|].
  2: { intros H; inversion H; subst. split; [intros n (d & [] & _)|]. split; [intros n []|auto]. }
  destruct (r_vars c s vs) as [[r us]|] eqn:E; [|discriminate]. intros H. injection H as <- <-.
  assert (X : (forall x, In x r -> builtin (snd x) \/ custom_scalar c s (snd x) \/ In (snd x) us) /\ (forall n, In n us -> exists x, In x r /\ snd x = n)).
  { revert r us E. induction vs as [|v vs IH]; intros r us E; cbn [r_vars] in E.
    - inversion E; subst. split; intros ? [].
    - destruct (r_vartype c s v) as [[t u]|] eqn:Et; [|discriminate].
      destruct (r_vars c s vs) as [[r' us']|] eqn:Er; [|discriminate]. inversion E; subst.
      destruct (IH _ _ eq_refl) as [A B].
      assert (Y : (builtin t /\ u = [] \/ custom_scalar c s t /\ u = [] \/ u = [t])).
      { unfold r_vartype in Et. destruct (v_type v); try (inversion Et; subst; left; split; [cbn; tauto|reflexivity]).
        destruct (get_type s name) as [ty|] eqn:Eg; [|discriminate]. destruct (st_def ty) eqn:Ed; inversion Et; subst; auto.
        unfold custom_scalar_name, custom_scalar, written_scalar.
        destruct (cc_bottom c); [left; split; [cbn; tauto|reflexivity]| |];
          right; left; (split; [|reflexivity]); exists name; (split; [reflexivity|]); right; eauto. }
      split.
      + intros x [<-|I]; cbn [snd].
        * destruct Y as [[Y _]|[[Y _]|Y]]; auto. right. right. rewrite Y. left; auto.
        * destruct (A x I) as [H1|[H1|H1]]; auto. right. right. apply in_or_app. auto.
      + intros n I. apply in_app_or in I. destruct I as [I|I].
        * destruct Y as [[_ Y]|[[_ Y]|Y]]; rewrite Y in I; cbn in I; try contradiction. destruct I as [I|[]]. exists (v, t). split; [left; auto|exact I].
        * destruct (B n I) as (x & Ix & Ex). exists x. split; [right; auto|auto]. }
  destruct X as [A B]. split; [|split].
  - intros n (d & [<-|[]] & U). cbn [decl_uses] in U. apply in_flat_map in U. destruct U as (m & Im & U).
    apply in_map_iff in Im. destruct Im as (x & <- & Ix). cbn [var_member m_type] in U. apply names_mod in U. cbn in U.
    destruct U as [<-|[]]. apply A. eapply Permutation_in; [symmetry; apply sort_by_perm|]. eauto.
  - intros n I. destruct (B n I) as (x & Ix & Ex). eexists. split; [left; reflexivity|]. cbn [decl_uses]. apply in_flat_map.
    exists (var_member x). split.
    + apply in_map. eapply Permutation_in; [apply sort_by_perm|]. auto.
    + cbn [var_member m_type]. apply names_mod. cbn. auto.
  - right. cbn. auto.
Qed.

Theorem C17_closed : forall fuel cx c o d ws co,
  order_ok (cx_order cx) -> order_ok o -> consistent (cx_schema cx) -> document_file fuel cx c o d ws co ->
  exists m, written_as cx c d co m /\
    (forall n, uses (tf_decls m) n ->
       declared (tf_decls m) n \/ builtin n \/ custom_scalar c (cx_schema cx) n \/ In n (tf_globals m)) /\
    (forall n, In n (tf_globals m) -> uses (tf_decls m) n) /\
    (forall n, In n (tf_args m) -> n = "never" \/ declared (tf_decls m) n).
Proof.
  intros fuel cx c o d ws co O O' Co H.
  destruct (document_inv _ _ _ _ _ _ _ O O' Co H) as (P & p & l & op & ds & us & vds & vus & R & C & Hc & En & Ek & Ev & Sh & Rn & Rv & Eg & Et).
  exists (file_of c op (ds ++ vds) (co_globals co)). split; auto. cbn [file_of tf_decls tf_globals tf_args].
  destruct (rnd_closed c (cx_schema cx)) as (_ & _ & _ & X). destruct (X _ _ _ _ Rn P Sh) as (A1 & A2 & A3).
  destruct (vars_closed _ _ _ _ _ Rv) as (B1 & B2 & B3).
  assert (G : forall n, In n (sort_by (fun x => x) (co_globals co)) <-> In n us \/ In n vus).
  { intros n. rewrite <- in_app_iff. rewrite Eg. split; intros I.
    - eapply Permutation_in in I; [|symmetry; apply sort_by_perm]. apply In_sunion in I. destruct I as [[]|I]; auto.
    - eapply Permutation_in; [apply sort_by_perm|]. apply In_sunion. auto. }
  split; [|split].
  - intros n U. rewrite G. unfold declared. rewrite map_app, in_app_iff. apply uses_app in U. destruct U as [U|U].
    + apply A1 in U. unfold closed_in, declared in U. tauto.
    + apply B1 in U. tauto.
  - intros n I. apply uses_app. apply G in I. destruct I; auto.
  - intros n I. unfold declared. rewrite map_app, in_app_iff. rewrite En in *.
    assert (J : n = def_name d \/ n = vars_arg op).
    { unfold node_args in I. rewrite En in I. destruct (op_kind op); cbn in I; intuition. }
    destruct J as [-> | ->]; [right; left; exact A2|]. unfold vars_arg. rewrite En.
    destruct B3 as [B3|B3]; [rewrite B3; auto|]. destruct (op_variables op); auto.
Qed.
Print Assumptions C17_closed.

(** Non-vacuity: a nested selection with an enum and a variable of an input object type *)
Example C17_nonvacuous : exists ws co,
  document_file 20 (zoo_cx false []) (cconfig_of (merge_config 4 no_args config_default)) plain_order
    (DOp (OpNamed KQuery (at_pos 1 1) (Some "Q") [{| vd_pos := at_pos 1 5; vd_name := "f"; vd_type := VTNamed "Filter"; vd_default := None |}] []
       [node 2 "me" [node 3 "friend" [leaf 4 "name"]]; leaf 5 "color"])) ws co /\ co_globals co = ["Color"; "Filter"].
Proof. do 2 eexists. split; [eexists; split; vm_compute; reflexivity|]. vm_compute. reflexivity. Qed.
