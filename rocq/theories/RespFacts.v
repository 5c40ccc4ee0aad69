(** Responses against the declarations of a module. *)
From Verif Require Export SpecResp DeclFacts LoadFacts.

(** *** Fields of a loaded schema *)
Lemma loaded_field js s P n f : load_schema js = Ok s -> field_of s P n f ->
  f = typename_field /\ n = "__typename" \/
  exists j fs fj, last_named jt_name P js j /\ (jt_kind j = "OBJECT" \/ jt_kind j = "INTERFACE") /\
    jt_fields j = Some fs /\ last_named jf_name n fs fj /\ ftype_of_json (jf_type fj) = Ok (sf_type f).
Proof.
  unfold load_schema, get_type. intros L (t & G & F). unfold get_type in G. rewrite load_types_store in L.
  destruct (store_ok jt_name type_of_json bad_type type_err _ _ _ L) as (_ & La & No).
  destruct (named_dec jt_name P js) as [N|(j & Lj)]; [rewrite (No _ N) in G; discriminate|].
  destruct (La _ _ Lj) as (t' & G' & E). rewrite G in G'. injection G' as <-.
  assert (K : forall fs m, get_fields_for_complex fs true = Ok m -> aget n m = Some f ->
     f = typename_field /\ n = "__typename" \/ exists fj, last_named jf_name n fs fj /\ ftype_of_json (jf_type fj) = Ok (sf_type f)).
  { intros fs m H A. unfold get_fields_for_complex in H. rewrite insert_fields_store in H.
    destruct (store_ok jf_name field_of_json bad_field field_err _ _ _ H) as (_ & Lf & Nf).
    destruct (named_dec jf_name n fs) as [N|(fj & Lfj)].
    - rewrite (Nf _ N) in A. cbn [aget] in A. destruct (eqb n "__typename") eqn:En; [|discriminate]. apply eqb_ok in En.
      injection A as <-. auto.
    - destruct (Lf _ _ Lfj) as (f' & A' & Ef). rewrite A in A'. injection A' as <-. right. exists fj. split; auto.
      unfold field_of_json in Ef. destruct (ftype_of_json (jf_type fj)); [|discriminate]. injection Ef as <-. reflexivity. }
  unfold type_of_json in E. cbn zeta in E.
  repeat match type of E with (if String.eqb (jt_kind j) ?x then _ else _) = _ =>
    let H := fresh "Ek" in destruct (String.eqb (jt_kind j) x) eqn:H; [apply String.eqb_eq in H|] end; try discriminate.
  - destruct (jt_fields j) as [fs|] eqn:Ef; [|discriminate]. destruct (get_fields_for_complex fs true) as [m|] eqn:Em; [|discriminate].
    injection E as <-. cbn in F. destruct (K _ _ Em F) as [K1|(fj & K1 & K2)]; auto. right. exists j, fs, fj. auto.
  - destruct (jt_enum_values j); [|discriminate]. injection E as <-. contradiction.
  - injection E as <-. contradiction.
  - destruct (jt_fields j) as [fs|] eqn:Ef; [|discriminate].
    destruct (jt_possible_types j) as [ps|]; [|discriminate]. destruct (get_fields_for_complex fs true) as [m|] eqn:Em; [|discriminate].
    injection E as <-. cbn in F. destruct (K _ _ Em F) as [K1|(fj & K1 & K2)]; auto. right. exists j, fs, fj. auto.
  - destruct (jt_input_fields j) as [fs|]; [|discriminate]. destruct (get_fields_for_complex fs false); [|discriminate]. injection E as <-. contradiction.
  - destruct (jt_possible_types j) as [ps|]; [|discriminate]. injection E as <-. cbn [st_def] in F.
    left. cbn [aget] in F. destruct (eqb n "__typename") eqn:En; [|discriminate]. apply eqb_ok in En. injection F as <-. auto.
Qed.

Lemma last_fun {A} (name : A -> string) n l x y : last_named name n l x -> last_named name n l y -> x = y.
Proof.
  intros (p & q & E & Ex & N) (p' & q' & E' & Ey & N'). pose proof (eq_trans (eq_sym E) E') as X. clear E E'. rename X into E'. revert p' E'. induction p as [|z p IH]; intros [|z' p'] E'; cbn in E'.
  - injection E' as -> _. reflexivity.
  - injection E' as -> ->. exfalso. apply (N y); auto. apply in_or_app. right. left; auto.
  - injection E' as -> <-. exfalso. apply (N' x); auto. apply in_or_app. right. left; auto.
  - injection E' as _ E'. eauto.
Qed.
Lemma last_in {A} (name : A -> string) n l x : last_named name n l x -> In x l /\ name x = n.
Proof. intros (p & q & -> & E & _). split; auto. apply in_or_app. right. left; auto. Qed.

Section Intro.
  Variable js : jschema.
  Variable s : schema.
  Hypothesis I : introspection js s.

  Lemma kind_def b j : last_named jt_name b js j -> exists t, get_type s b = Some t /\ type_matches j (st_def t).
  Proof. intros L. destruct (load_ok _ _ (in_loaded _ _ I)) as (_ & H & _). destruct (H _ _ L) as (t & G & _ & M). eauto. Qed.
  Lemma leaf_not_composite b j : last_named jt_name b js j -> jt_kind j = "ENUM" \/ jt_kind j = "SCALAR" -> ~ composite s b.
  Proof.
    intros L K (t & G & C). destruct (kind_def _ _ L) as (t' & G' & M). rewrite G in G'. injection G' as <-.
    destruct M as [fs m E|vs E|E|fs ps m E|fs m E|ps m E]; try contradiction; rewrite E in K; destruct K; discriminate.
  Qed.
  Lemma json_named kind g : In kind output_kinds -> valid_gtype g = true -> forall ft,
    ftype_of_json (json_of kind g) = Ok ft -> ft_name ft = gbase g /\ def_of_kind (gbase g) kind (ft_def ft).
  Proof.
    intros K _ ft E. apply ftype_ok in E. destruct E as (k & B & D).
    assert (Nk : kind <> "NON_NULL" /\ kind <> "LIST"). { cbn in K. intuition (subst; discriminate). }
    assert (X : k = kind /\ ft_name ft = gbase g).
    { clear D. revert B. generalize (ft_name ft). intros n. induction g as [b|g IH|g IH]; cbn [json_of gbase]; intros B.
      - inversion B as [? ? ? ? ?|? ? ? ? ? [X|X]]; subst; auto; destruct Nk; congruence.
      - inversion B; subst; try congruence; auto.
      - inversion B; subst; try congruence; auto. }
    destruct X as [-> E]. rewrite E in D. auto.
  Qed.

  (** Every field other than __typename, with its declaration *)
  Lemma field_declared P n f : field_of s P n f ->
    f = typename_field /\ n = "__typename" \/
    exists kind g, declared js P n kind g /\ ftype_of_json (json_of kind g) = Ok (sf_type f) /\ In kind output_kinds /\ valid_gtype g = true.
  Proof.
    intros F. destruct (loaded_field _ _ _ _ _ (in_loaded _ _ I) F) as [H|(j & fs & fj & L & K & E & Lf & Ef)]; auto. right.
    destruct (in_refs _ _ I _ _ _ _ _ L K E Lf) as (kind & g & Ej & Ok & V). exists kind, g. rewrite <- Ej. split; [|auto].
    exists j, fs, fj. auto.
  Qed.
  Lemma typename_undeclared P kind g : ~ declared js P "__typename" kind g.
  Proof.
    intros (j & fs & f & L & _ & E & Lf & _). apply last_in in L. apply last_in in Lf. destruct (in_reserved _ _ I) as [R _].
    apply (R j fs f); tauto.
  Qed.
  Lemma typename_not_composite : ~ composite s "__typename".
  Proof.
    intros (t & G & _). destruct (load_ok _ _ (in_loaded _ _ I)) as (_ & _ & No). rewrite No in G; [discriminate|].
    intros j J. destruct (in_reserved _ _ I) as [_ R]. auto.
  Qed.

  Lemma intro_consistent : consistent s.
  Proof.
    intros P n f F. destruct (field_declared _ _ _ F) as [[-> _]|(kind & g & D & E & K & V)].
    - exact typename_not_composite.
    - destruct (in_kinds _ _ I _ _ _ _ D) as (j & L & Ek). destruct (json_named kind g K V _ E) as [En Dk].
      unfold kind_agrees. cbn zeta. rewrite En. destruct (kind_def _ _ L) as (t & G & M). rewrite G. cbn [option_map].
      destruct Dk as [|sc Sc| | | |].
      + destruct M as [fs m E1|vs E1|E1|fs ps m E1|fs m E1|ps m E1]; try (rewrite E1 in Ek; discriminate). eauto.
      + eapply leaf_not_composite; eauto.
      + destruct M as [fs m E1|vs E1|E1|fs ps m E1|fs m E1|ps m E1]; try (rewrite E1 in Ek; discriminate). eauto.
      + destruct M as [fs m E1|vs E1|E1|fs ps m E1|fs m E1|ps m E1]; try (rewrite E1 in Ek; discriminate). eauto.
      + cbn in K. intuition discriminate.
      + destruct M as [fs m E1|vs E1|E1|fs ps m E1|fs m E1|ps m E1]; try (rewrite E1 in Ek; discriminate). eauto.
  Qed.
End Intro.

(** *** Values *)
Lemma gvalues_mono (inner inner' : string -> value -> Prop) g : forall v, (forall y, inner (gbase g) y -> inner' (gbase g) y) ->
  gvalues inner g v -> gvalues inner' g v.
Proof.
  induction g as [n|g IH|g IH]; intros v H; cbn [gvalues gbase] in *.
  - intros [E|E]; auto.
  - intros [E|(l & -> & F)]; auto. right. exists l. split; auto. eapply Forall_impl; [|exact F]. intros x. apply IH. auto.
  - intros [E N]. split; auto.
Qed.
Lemma gvalues_cov s (inner inner' : string -> value -> Prop) g' g : covariant s g' g ->
  (forall y, inner (gbase g') y -> inner' (gbase g) y) -> forall v, gvalues inner g' v -> gvalues inner' g v.
Proof.
  induction 1 as [n|a b _ _ _|a b _ IH|a b _ IH|a b _ IH]; intros H v; cbn [gvalues gbase] in *.
  - intros [E|E]; auto.
  - intros [E|E]; auto.
  - intros [E|(l & -> & F)]; auto. right. exists l. split; auto. eapply Forall_impl; [|exact F]. intros x. apply IH. auto.
  - intros [E N]. split; auto.
  - intros [E N]. auto.
Qed.
Lemma cov_base s g' g : covariant s g' g -> gbase g' = gbase g \/
  composite s (gbase g') /\ composite s (gbase g) /\ forall T, possible s (gbase g') T -> possible s (gbase g) T.
Proof. induction 1; cbn [gbase]; auto. Qed.
Lemma gvalues_const (inner : string -> value -> Prop) g : forall v, gvalues inner g v -> gvalues (fun _ => inner (gbase g)) g v.
Proof.
  induction g as [n|g IH|g IH]; intros v; cbn [gvalues gbase]; auto.
  - intros [E|(l & -> & F)]; auto. right. exists l. split; auto. eapply Forall_impl; [|exact F]. apply IH.
  - intros [E N]. auto.
Qed.
Lemma null_dec (v : value) : v = VNull \/ v <> VNull.
Proof. destruct v; auto; right; discriminate. Qed.
Lemma gvalues_some inner g : forall v, gvalues inner g v -> gvalues (fun n y => inner n y /\ y <> VNull) g v.
Proof.
  induction g as [n|g IH|g IH]; intros v; cbn [gvalues].
  - intros [E|E]; auto. destruct (null_dec v); auto.
  - intros [E|(l & -> & F)]; auto. right. exists l. split; auto. eapply Forall_impl; [|exact F]. apply IH.
  - intros [E N]. auto.
Qed.
Lemma sem_mono m (P Q : value -> Prop) : (forall v, P v -> Q v) -> forall v, sem m P v -> sem m Q v.
Proof.
  intros H v.
  assert (L : forall P Q : value -> Prop, (forall v, P v -> Q v) -> listof P v -> listof Q v).
  { intros P' Q' H' (l & -> & F). exists l. split; auto. eapply Forall_impl; eauto. }
  destruct m; cbn [sem]; eauto.
  - intros [X|X]; eauto.
  - intros [X|X]; eauto.
  - apply L. intros x [X|X]; eauto.
  - intros [X|X]; auto. left. revert X. apply L. intros x [X|X]; eauto.
Qed.
Lemma sems_mono l (P Q : value -> Prop) : (forall v, P v -> Q v) -> forall v, sems l P v -> sems l Q v.
Proof. intros H. induction l as [|m l IH]; cbn; auto. apply sem_mono. auto. Qed.

(** A value of a type reference is accepted by its translation *)
Lemma value_accepted env kind g ft e (inner : string -> value -> Prop) v : In kind output_kinds -> valid_gtype g = true ->
  nullable_list_of_nonnull_lists false g = false -> ftype_of_json (json_of kind g) = Ok ft ->
  (forall y, inner (gbase g) y -> y <> VNull -> denote env e y) ->
  gvalues inner g v -> denote env (ptd_expr (ft_rest ft) (ft_mod ft) e) v.
Proof.
  intros K V L E H G. apply gvalues_some, gvalues_const in G.
  assert (Kn : In kind named_kinds) by (cbn in *; intuition).
  destruct (known_kind kind (gbase g) Kn) as [d Hd].
  destruct (builder_ok (fun y => inner (gbase g) y /\ y <> VNull) ltac:(intros [_ X]; auto) kind g d Hd V mb_new) as (ft' & E' & _ & _ & Hv);
    [reflexivity|exact L|]. unfold ftype_of_json in E. rewrite E in E'. injection E' as <-.
  apply denote_ptd. apply (sems_mono _ (sem (ft_mod ft) (fun y => inner (gbase g) y /\ y <> VNull))).
  - apply sem_mono. intros y [Y1 Y2]. auto.
  - apply Hv. exact G.
Qed.

Lemma denote_mono (env env' : string -> value -> Prop) e : (forall n v, env n v -> env' n v) -> forall v, denote env e v -> denote env' e v.
Proof.
  intros H. induction e as [n|x| |e IH|a IHa b IHb|e IH]; intros v; cbn [denote]; auto.
  - intros (l & -> & F). exists l. split; auto. eapply Forall_impl; eauto.
  - intros [X|X]; auto.
Qed.
Lemma decl_values_mono (env env' : string -> value -> Prop) d : (forall n v, env n v -> env' n v) ->
  forall v, decl_values env d v -> decl_values env' d v.
Proof.
  intros H v. destruct d as [n ms|n alts]; cbn [decl_values].
  - intros (kvs & -> & F). exists kvs. split; auto. eapply Forall_impl; [|exact F]. cbn. intros m. destruct (aget (m_name m) kvs); auto.
    apply denote_mono; auto.
  - intros (m & J & E). eauto.
Qed.
Lemma accepts_mono D base n : forall m, n <= m -> forall name v, accepts D base n name v -> accepts D base m name v.
Proof.
  induction n as [|n IH]; intros m L name v; [intros []|]. destruct m as [|m]; [lia|]. cbn [accepts]. intros [H1 H2]. split; auto.
  intros d J E. eapply decl_values_mono; [|apply H1; auto]. intros x y. apply IH. lia.
Qed.

(** *** Field collection *)
Section Active.
  Variable active : list directive -> Prop.
  (** No selection is switched off *)
  Inductive unconditional : selection -> Prop :=
  | unc_field p al n a d sub : active d -> Forall unconditional sub -> unconditional (SField p al n a d sub)
  | unc_inline p c d sub : active d -> Forall unconditional sub -> unconditional (SInline p c d sub)
  | unc_spread p n d : active d -> unconditional (SSpread p n d).
End Active.

Section Collects.
  Variable s : schema.
  Variable frags : amap string fragdef.
  Variable active : list directive -> Prop.
  Notation unc := (unconditional active).
  Hypothesis frags_unc : forall n fd, aget n frags = Some fd -> Forall unc (fr_sels fd).

  Lemma collects_ext T (M M' : selset) k n ss : (forall x, M x -> M' x) -> collects s frags active T M k n ss -> collects s frags active T M' k n ss.
  Proof. intros H C. destruct C; [eapply col_field|eapply col_inline|eapply col_spread]; eauto. Qed.
  Lemma occ_collects T P M k P' n ss : occ s frags T P M k P' n ss -> (forall x, M x -> unc x) ->
    collects s frags active T M k n ss /\ Forall unc ss.
  Proof.
    induction 1 as [P M p al n a d sub J|P M p c d sub k P' n ss J Po _ IH|P M p name d fd k P' n ss J A Po _ IH]; intros C; pose proof (C _ J) as X; inversion X; subst.
    - split; auto. econstructor; eauto.
    - destruct IH as [IH1 IH2]; [apply Forall_forall; auto|]. split; auto. eapply col_inline; eauto.
    - destruct IH as [IH1 IH2]; [apply Forall_forall; eauto|]. split; auto. eapply col_spread; eauto.
  Qed.
  Lemma valid_in P l : valid_sels s frags P l -> forall x, In x l -> valid_sel s frags P x.
  Proof. induction l as [|y l IH]; intros V x J; [destruct J|]. inversion V; subst. destruct J as [<-|J]; auto. Qed.
  Lemma collects_occ T M k n ss : collects s frags active T M k n ss -> forall P, (forall x, M x -> valid_sel s frags P x) -> possible s P T ->
    exists P' f, occ s frags T P M k P' n ss /\ field_of s P' n f /\ possible s P' T /\
      forall x, In x ss -> valid_sel s frags (ft_name (sf_type f)) x.
  Proof.
    induction 1 as [M p al n a d sub J _|M p c d sub k n ss J _ Po _ IH|M p name d fd k n ss J _ A Po _ IH]; intros P V Pp;
      pose proof (V _ J) as X; inversion X; subst.
    - eexists P, _. split; [econstructor; eauto|]. split; [eauto|]. split; auto. intros y [].
    - eexists P, _. split; [econstructor; eauto|]. split; [eauto|]. split; auto. apply valid_in; auto.
    - cbn in Po. destruct (IH c0) as (P' & f & O & F & Po' & V'); auto. { apply valid_in; auto. }
      exists P', f. split; [eapply occ_inline; eauto|]. auto.
    - match goal with A' : aget name frags = Some _ |- _ => rewrite A in A'; injection A' as <- end.
      destruct (IH (fr_cond fd)) as (P' & f & O & F & Po' & V'); auto. { apply valid_in; auto. }
      exists P', f. split; [eapply occ_spread; eauto|]. auto.
  Qed.
End Collects.

Lemma response_ext js s frags active custom n : forall T (M M' : selset) v, (forall x, M x <-> M' x) ->
  object_response js s frags active custom n T M v -> object_response js s frags active custom n T M' v.
Proof.
  induction n as [|n IH]; intros T M M' v H; cbn [object_response]; auto. intros (kvs & -> & K & F). exists kvs. split; auto.
  assert (X : forall k fld ss, collects s frags active T M k fld ss <-> collects s frags active T M' k fld ss).
  { intros k fld ss. split; apply collects_ext; intros x; apply H. }
  split.
  - intros k. rewrite K. split; intros (fld & ss & C); exists fld, ss; apply X; auto.
  - intros k x J. destruct (F k x J) as (fld & ss & C & [E|(kind & g & D & G)]); exists fld, ss; (split; [apply X; exact C|]); auto.
    right. exists kind, g. split; auto. eapply gvalues_mono; [|exact G]. intros y [L|(T' & Po & R)]; auto. right. exists T'. split; auto.
    eapply IH; [|exact R]. intros z. split; intros (f' & ss' & C' & Iz); exists f', ss'; (split; [apply X; exact C'|auto]).
Qed.
