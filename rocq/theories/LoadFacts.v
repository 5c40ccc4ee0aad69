(** Schema loading against SpecLoad.v. *)
From Verif Require Export SpecLoad BaseFacts.

Lemma kind_in k : In k known_kinds \/ ~ In k known_kinds.
Proof. destruct (in_dec string_dec k known_kinds); auto. Qed.
Lemma scalar_is_of_name n : scalar_is n (scalar_of_name n).
Proof.
  unfold scalar_of_name.
  repeat match goal with |- context [String.eqb n ?x] => let E := fresh "E" in destruct (String.eqb n x) eqn:E; [apply String.eqb_eq in E; subst n; constructor|apply String.eqb_neq in E] end.
  constructor. cbn. intuition congruence.
Qed.
Lemma scalar_is_unique n s : scalar_is n s -> s = scalar_of_name n.
Proof.
  intros H. destruct H as [| | | | |n N]; auto. unfold scalar_of_name. cbn in N.
  repeat match goal with |- context [String.eqb n ?x] => let E := fresh "E" in destruct (String.eqb n x) eqn:E; [apply String.eqb_eq in E; subst n; tauto|] end.
  reflexivity.
Qed.
Lemma fdef_of_kind_ok k n d : fdef_of_kind k n = Ok d <-> def_of_kind n k d.
Proof.
  unfold fdef_of_kind. split.
  - repeat match goal with |- context [String.eqb k ?x] => let E := fresh "E" in destruct (String.eqb k x) eqn:E; [apply String.eqb_eq in E; subst k; intros H; inversion H; subst; constructor; try apply scalar_is_of_name|] end.
    discriminate.
  - intros H. destruct H as [|s H| | | |]; try reflexivity. cbn. rewrite (scalar_is_unique _ _ H). reflexivity.
Qed.
Lemma fdef_of_kind_err k n e : fdef_of_kind k n = Err e <-> ~ In k known_kinds /\ e = EUnknownType n k.
Proof.
  unfold fdef_of_kind. split.
  - repeat match goal with |- context [String.eqb k ?x] => let E := fresh "E" in destruct (String.eqb k x) eqn:E; [discriminate|] end.
    intros H; inversion H; subst. split; auto. intros I. cbn in I.
    repeat match goal with H : String.eqb _ _ = false |- _ => apply String.eqb_neq in H end. intuition congruence.
  - intros [N ->].
    repeat match goal with |- context [String.eqb k ?x] => let E := fresh "E" in destruct (String.eqb k x) eqn:E; [apply String.eqb_eq in E; subst k; exfalso; apply N; cbn; tauto|] end.
    reflexivity.
Qed.

Lemma jtype_rect' (P : jtype -> Prop) :
  (forall k n, P (JT k n None)) -> (forall k n j, P j -> P (JT k n (Some j))) -> forall j, P j.
Proof.
  intros H0 H1. fix IH 1. intros [k n [j|]]; [apply H1; apply IH|apply H0].
Qed.

Lemma kind_cases k : k = "NON_NULL" \/ k = "LIST" \/ (String.eqb k "NON_NULL" = false /\ String.eqb k "LIST" = false /\ k <> "NON_NULL" /\ k <> "LIST").
Proof.
  destruct (String.eqb k "NON_NULL") eqn:E1; [apply String.eqb_eq in E1; auto|].
  destruct (String.eqb k "LIST") eqn:E2; [apply String.eqb_eq in E2; auto|].
  right. right. split; auto. split; auto. split; apply String.eqb_neq; auto.
Qed.
Lemma ftype_ok j : forall b t, ftype_of_json_from b j = Ok t ->
  exists k, base_of j k (ft_name t) /\ def_of_kind (ft_name t) k (ft_def t).
Proof.
  assert (Base : forall k n o b t, k <> "NON_NULL" -> k <> "LIST" -> String.eqb k "NON_NULL" = false -> String.eqb k "LIST" = false ->
    ftype_of_json_from b (JT k n o) = Ok t -> exists k0, base_of (JT k n o) k0 (ft_name t) /\ def_of_kind (ft_name t) k0 (ft_def t)).
  { intros k n o b t N1 N2 E1 E2 H. cbn in H. rewrite E1, E2 in H. destruct n as [n|]; [|discriminate].
    destruct (fdef_of_kind k n) as [d|e] eqn:E; [|discriminate]. inversion H; subst. cbn.
    exists k. split; [constructor; auto|]. apply fdef_of_kind_ok. auto. }
  induction j as [k n|k n j IH] using jtype_rect'; intros b t H.
  - destruct (kind_cases k) as [->|[->|(E1 & E2 & N1 & N2)]]; [discriminate|discriminate|eapply Base; eauto].
  - destruct (kind_cases k) as [->|[->|(E1 & E2 & N1 & N2)]]; [| |eapply Base; eauto];
      cbn in H; destruct (IH _ _ H) as (k0 & B & D); exists k0; split; auto; constructor; auto.
Qed.
Lemma ftype_err j : forall b e, ftype_of_json_from b j = Err e <-> bad_ref j e.
Proof.
  assert (Base : forall k n o b e, k <> "NON_NULL" -> k <> "LIST" -> String.eqb k "NON_NULL" = false -> String.eqb k "LIST" = false ->
    (ftype_of_json_from b (JT k n o) = Err e <-> bad_ref (JT k n o) e)).
  { intros k n o b e N1 N2 E1 E2. cbn. rewrite E1, E2. split.
    - destruct n as [n|]; [|intros H; inversion H; apply bad_unnamed; auto].
      destruct (fdef_of_kind k n) as [d|e'] eqn:E; [discriminate|]. intros H; inversion H; subst.
      apply fdef_of_kind_err in E. destruct E as [N ->]. apply bad_kind; auto.
    - intros H. inversion H as [x| |w x y z [->| ->]| |]; subst; try congruence; try discriminate; auto.
      replace (fdef_of_kind k n0) with (@Err schema_error fdef (EUnknownType n0 k)); auto.
      symmetry. apply fdef_of_kind_err. auto. }
  induction j as [k n|k n j IH] using jtype_rect'; intros b e.
  - destruct (kind_cases k) as [->|[->|(E1 & E2 & N1 & N2)]]; [| |apply Base; auto]; cbn; split; intros H; inversion H; subst; try constructor; congruence.
  - destruct (kind_cases k) as [->|[->|(E1 & E2 & N1 & N2)]]; [| |apply Base; auto]; cbn; rewrite IH;
      (split; intros H; [apply bad_inner; auto|inversion H; subst; congruence]).
Qed.

Lemma field_ok j f : field_of_json j = Ok f -> field_matches j f.
Proof.
  unfold field_of_json, field_matches. destruct (ftype_of_json (jf_type j)) as [t|e] eqn:E; [|discriminate].
  intros H; inversion H; subst; cbn. split; auto. split; [|split; [reflexivity|]].
  - destruct (jf_deprecated j) as [[|]|]; split; congruence.
  - unfold ftype_of_json in E. apply ftype_ok in E. auto.
Qed.
Lemma field_err j e : field_of_json j = Err e <-> bad_field j e.
Proof.
  unfold field_of_json, bad_field. rewrite <- (ftype_err (jf_type j) mb_new e). fold (ftype_of_json (jf_type j)).
  destruct (ftype_of_json (jf_type j)); split; intros H; inversion H; auto.
Qed.
Lemma field_total j : (exists f, field_of_json j = Ok f) \/ exists e, bad_field j e.
Proof. destruct (field_of_json j) as [f|e] eqn:E; eauto. apply field_err in E. eauto. Qed.

(** A loop over declarations that stores each under its name *)
Section Loop.
Context {A B E : Type} (name : A -> string) (conv : A -> res E B) (bad : A -> E -> Prop).
Hypothesis bad_spec : forall x e, conv x = Err e <-> bad x e.
Fixpoint store (l : list A) (m : amap string B) : res E (amap string B) :=
  match l with
  | [] => Ok m
  | x :: l' => match conv x with Err e => Err e | Ok b => store l' (aset (name x) b m) end
  end.
Lemma store_err l : forall m e, store l m = Err e <-> first_bad bad l e.
Proof.
  induction l as [|x l IH]; intros m e; cbn.
  - split; [discriminate|]. intros ([|y pre] & z & suf & H & _); discriminate.
  - destruct (conv x) as [b|e'] eqn:Ex.
    + rewrite IH. split.
      * intros (pre & z & suf & -> & Bz & N). exists (x :: pre), z, suf. split; auto. split; auto.
        intros y e0 [<-|I]; auto. intros Bx. apply bad_spec in Bx. congruence.
      * intros ([|y pre] & z & suf & H & Bz & N); cbn in H; inversion H; subst.
        -- apply bad_spec in Bz. congruence.
        -- exists pre, z, suf. split; auto. split; auto. intros y0 e0 I. apply N. cbn. auto.
    + split.
      * intros H; inversion H; subst. exists [], x, l. split; auto. split; [apply bad_spec; auto|]. intros y e0 [].
      * intros ([|y pre] & z & suf & H & Bz & N); cbn in H; inversion H; subst.
        -- apply bad_spec in Bz. congruence.
        -- exfalso. apply (N y e'); [cbn; auto|]. apply bad_spec. auto.
Qed.
Lemma store_ok l : forall m r, store l m = Ok r ->
  none_bad bad l /\
  (forall n x, last_named name n l x -> exists b, aget n r = Some b /\ conv x = Ok b) /\
  (forall n, none_named name n l -> aget n r = aget n m).
Proof.
  induction l as [|x l IH]; intros m r; cbn.
  - intros H; inversion H; subst. split; [|split]; auto.
    + intros y e [].
    + intros n x ([|y pre] & suf & H0 & _); discriminate.
  - destruct (conv x) as [b|e] eqn:Ex; [|discriminate]. intros H. destruct (IH _ _ H) as (Nb & La & No).
    split; [|split].
    + intros y e [<-|I]; [|apply Nb; auto]. intros Bx. apply bad_spec in Bx. congruence.
    + intros n y ([|z pre] & suf & H0 & En & N); cbn in H0; inversion H0; subst.
      * exists b. split; auto. rewrite No; auto. apply aget_aset_same.
      * apply La. exists pre, suf. auto.
    + intros n N. rewrite No; [|intros y I; apply N; cbn; auto]. apply aget_aset_other.
      apply not_eq_sym. apply (N x); cbn; auto.
Qed.
End Loop.
Lemma named_dec {A} (name : A -> string) n l : none_named name n l \/ exists x, last_named name n l x.
Proof.
  induction l as [|x l [N|(y & pre & suf & -> & En & N)]].
  - left. intros y [].
  - destruct (string_dec (name x) n) as [E|E].
    + right. exists x, [], l. auto.
    + left. intros y [<-|I]; auto.
  - right. exists y, (x :: pre), suf. auto.
Qed.

Lemma insert_fields_store fs m : insert_fields fs m = store jf_name field_of_json fs m.
Proof. revert m. induction fs as [|j fs IH]; intros m; cbn; auto; destruct (field_of_json j); auto. Qed.
Lemma load_types_store js m : load_types js m = store jt_name type_of_json js m.
Proof. revert m. induction js as [|j js IH]; intros m; cbn; auto; destruct (type_of_json j); auto. Qed.

Lemma complex_ok fs tn m : get_fields_for_complex fs tn = Ok m -> none_bad bad_field fs /\ lookup_matches tn fs m.
Proof.
  unfold get_fields_for_complex. rewrite insert_fields_store. intros H.
  destruct (store_ok jf_name field_of_json bad_field field_err _ _ _ H) as (Nb & La & No). split; auto. split.
  - intros n j L. destruct (La n j L) as (f & G & E). exists f. split; auto. apply field_ok. auto.
  - intros n N. rewrite No; auto. destruct tn; cbn; auto.
Qed.
Lemma complex_err fs tn e : get_fields_for_complex fs tn = Err e <-> first_bad bad_field fs e.
Proof. unfold get_fields_for_complex. rewrite insert_fields_store. apply store_err. exact field_err. Qed.

Lemma type_ok j t : type_of_json j = Ok t -> st_doc t = jt_description j /\ type_matches j (st_def t).
Proof.
  unfold type_of_json. intros H.
  destruct (String.eqb (jt_kind j) "OBJECT") eqn:E1.
  { apply String.eqb_eq in E1. destruct (jt_fields j) as [fs|] eqn:Ef; [|discriminate].
    destruct (get_fields_for_complex fs true) as [m|] eqn:Em; [|discriminate]. inversion H; subst. cbn.
    apply complex_ok in Em. split; auto. eapply tm_object; eauto. apply Em. }
  destruct (String.eqb (jt_kind j) "ENUM") eqn:E2.
  { apply String.eqb_eq in E2. destruct (jt_enum_values j) as [vs|] eqn:Ef; [|discriminate].
    inversion H; subst. cbn. split; auto. eapply tm_enum; eauto. }
  destruct (String.eqb (jt_kind j) "SCALAR") eqn:E3.
  { apply String.eqb_eq in E3. inversion H; subst. cbn. split; auto. apply tm_scalar. auto. }
  destruct (String.eqb (jt_kind j) "INTERFACE") eqn:E4.
  { apply String.eqb_eq in E4. destruct (jt_fields j) as [fs|] eqn:Ef; [|discriminate].
    destruct (jt_possible_types j) as [ps|] eqn:Ep; [|discriminate].
    destruct (get_fields_for_complex fs true) as [m|] eqn:Em; [|discriminate]. inversion H; subst. cbn.
    apply complex_ok in Em. split; auto. eapply tm_interface; eauto. apply Em. }
  destruct (String.eqb (jt_kind j) "INPUT_OBJECT") eqn:E5.
  { apply String.eqb_eq in E5. destruct (jt_input_fields j) as [fs|] eqn:Ef; [|discriminate].
    destruct (get_fields_for_complex fs false) as [m|] eqn:Em; [|discriminate]. inversion H; subst. cbn.
    apply complex_ok in Em. split; auto. eapply tm_input; eauto. apply Em. }
  destruct (String.eqb (jt_kind j) "UNION") eqn:E6; [|discriminate].
  apply String.eqb_eq in E6. destruct (jt_possible_types j) as [ps|] eqn:Ep; [|discriminate].
  inversion H; subst. cbn. split; auto. eapply tm_union; eauto. split.
  - intros n f ([|y pre] & suf & Q & _); discriminate.
  - intros n _. cbn. unfold eqb, EqB_string. destruct (String.eqb n "__typename"); auto.
Qed.
Lemma type_err j e : type_of_json j = Err e <-> bad_type j e.
Proof.
  unfold type_of_json. split.
  - intros H.
    destruct (String.eqb (jt_kind j) "OBJECT") eqn:E1.
    { apply String.eqb_eq in E1. destruct (jt_fields j) as [fs|] eqn:Ef; [|inversion H; apply bt_nofields; auto].
      destruct (get_fields_for_complex fs true) as [m|] eqn:Em; [discriminate|]. inversion H; subst.
      apply complex_err in Em. eapply bt_field_o; eauto. }
    destruct (String.eqb (jt_kind j) "ENUM") eqn:E2.
    { apply String.eqb_eq in E2. destruct (jt_enum_values j) as [vs|] eqn:Ef; [discriminate|].
      inversion H; subst. apply bt_novalues; auto. }
    destruct (String.eqb (jt_kind j) "SCALAR") eqn:E3; [discriminate|].
    destruct (String.eqb (jt_kind j) "INTERFACE") eqn:E4.
    { apply String.eqb_eq in E4. destruct (jt_fields j) as [fs|] eqn:Ef; [|inversion H; apply bt_nofields; auto].
      destruct (jt_possible_types j) as [ps|] eqn:Ep; [|inversion H; apply bt_nopossible_i; auto; congruence].
      destruct (get_fields_for_complex fs true) as [m|] eqn:Em; [discriminate|]. inversion H; subst.
      apply complex_err in Em. eapply bt_field_i; eauto. }
    destruct (String.eqb (jt_kind j) "INPUT_OBJECT") eqn:E5.
    { apply String.eqb_eq in E5. destruct (jt_input_fields j) as [fs|] eqn:Ef; [|inversion H; apply bt_noinputs; auto].
      destruct (get_fields_for_complex fs false) as [m|] eqn:Em; [discriminate|]. inversion H; subst.
      apply complex_err in Em. eapply bt_field_n; eauto. }
    destruct (String.eqb (jt_kind j) "UNION") eqn:E6.
    { apply String.eqb_eq in E6. destruct (jt_possible_types j) as [ps|] eqn:Ep; [discriminate|].
      inversion H; subst. apply bt_nopossible_u; auto. }
    inversion H; subst. apply bt_kind.
    repeat match goal with H : String.eqb _ _ = false |- _ => apply String.eqb_neq in H end. cbn. intuition congruence.
  - intros H. destruct H as [N|[E|E] F|E F|E F|E F P0|E F|fs e E F B|fs ps e E F P0 B|fs e E F B].
    + repeat match goal with |- context [String.eqb (jt_kind j) ?x] => let E := fresh "K" in destruct (String.eqb (jt_kind j) x) eqn:E;
        [apply String.eqb_eq in E; exfalso; apply N; rewrite E; cbn; tauto|] end. reflexivity.
    + rewrite E, F. reflexivity.
    + rewrite E, F. reflexivity.
    + rewrite E, F. reflexivity.
    + rewrite E, F. reflexivity.
    + rewrite E, P0. cbn. destruct (jt_fields j); congruence.
    + rewrite E, F. reflexivity.
    + rewrite E, F. cbn. apply (complex_err _ true) in B. rewrite B. reflexivity.
    + rewrite E, F, P0. cbn. apply (complex_err _ true) in B. rewrite B. reflexivity.
    + rewrite E, F. cbn. apply (complex_err _ false) in B. rewrite B. reflexivity.
Qed.

Lemma load_err js e : load_schema js = Err e <-> first_bad bad_type js e.
Proof. unfold load_schema. rewrite load_types_store. apply store_err. exact type_err. Qed.
Lemma load_ok js s : load_schema js = Ok s ->
  none_bad bad_type js /\
  (forall n j, last_named jt_name n js j ->
     exists t, get_type s n = Some t /\ st_doc t = jt_description j /\ type_matches j (st_def t)) /\
  (forall n, none_named jt_name n js -> get_type s n = None).
Proof.
  unfold load_schema, get_type. rewrite load_types_store. intros H.
  destruct (store_ok jt_name type_of_json bad_type type_err _ _ _ H) as (Nb & La & No). split; auto. split.
  - intros n j L. destruct (La n j L) as (t & G & E). exists t. split; auto. apply type_ok. auto.
  - intros n N. rewrite No; auto.
Qed.
