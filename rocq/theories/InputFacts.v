(** Fields of input objects in the globals file. *)
From Verif Require Export GlobalText.

Definition opt_mod (m : fmod) : bool :=
  match m with MNullable | MNullableList | MNullableListOfNullable => true | _ => false end.
Lemma input_line_text c fn f t : input_field_type c fn f = Ok t ->
  input_field_line c (fn, f) = Ok ("  " +++ compile_documentation (sf_doc f) (sf_deprecated f) 2 +++ fn
    +++ (if opt_mod (ft_mod (sf_type f)) then "?: " else ": ") +++ single_prop_type_def (ft_mod (sf_type f)) t +++ ";").
Proof.
  intros H. unfold input_field_line. rewrite H. f_equal.
  destruct (ft_mod (sf_type f)); cbn [opt_mod single_prop_type_def]; rewrite ?sapp_assoc; reflexivity.
Qed.

Definition input_kinds : list string := ["SCALAR"; "ENUM"; "INPUT_OBJECT"].
(** TypeScript name of the named type of a field *)
Definition input_base (b : bottom_config) (kind n : string) : string :=
  if String.eqb kind "SCALAR" then scalar_text b n else n.

Lemma input_kind_field kind g : In kind input_kinds -> forall b, exists ft, ftype_of_json_from b (json_of kind g) = Ok ft /\
  ft_name ft = gbase g /\
  (forall c fn f, sf_type f = ft -> input_field_type c fn f = Ok (input_base (cc_bottom c) kind (gbase g))).
Proof.
  intros K. induction g as [n|g IH|g IH]; intros b.
  - cbn in K. destruct K as [<-|[<-|[<-|[]]]]; eexists; (split; [reflexivity|]); (split; [reflexivity|]);
      intros c fn f E; unfold input_field_type; rewrite E; cbn [ft_def ft_name]; [rewrite compile_scalar_spec|..]; reflexivity.
  - apply IH.
  - apply IH.
Qed.
(** The modifier of a type with at most one list level *)
Definition flat_mod (g : gtype) : fmod :=
  match g with
  | GNonNull (GList (GNonNull _)) => MList
  | GNonNull (GList _) => MListOfNullable
  | GNonNull _ => MNone
  | GList (GNonNull _) => MNullableList
  | GList _ => MNullableListOfNullable
  | GNamed _ => MNullable
  end.
Lemma flat_mod_ok kind g ft : In kind input_kinds -> valid_gtype g = true -> list_levels g <= 1 ->
  ftype_of_json (json_of kind g) = Ok ft -> ft_mod ft = flat_mod g /\ ft_rest ft = [].
Proof.
  intros K V L E. assert (Kd : exists d, fdef_of_kind kind (gbase g) = Ok d).
  { apply known_kind. unfold named_kinds. cbn in K |- *. tauto. }
  destruct Kd as (d & Kd). destruct (fdef_named _ _ _ Kd) as (K1 & K2).
  assert (Base : forall b n, gbase g = n -> ftype_of_json_from b (JT kind (Some n) None) =
    Ok {| ft_name := n; ft_mod := mb_concrete b; ft_def := d; ft_rest := rev (mb_higher b) |}).
  { intros b n <-. cbn [ftype_of_json_from]. rewrite K1, K2, Kd. reflexivity. }
  unfold ftype_of_json in E.
  destruct g as [n|[n|g|[n|g|g]]|[n|[n|g|[n|g|g]]|g]]; cbn in L, V; try lia; try discriminate;
    cbn [json_of] in E; cbn [ftype_of_json_from String.eqb Ascii.eqb Bool.eqb] in E;
    change (String.eqb "LIST" "NON_NULL") with false in E; change (String.eqb "LIST" "LIST") with true in E;
    change (String.eqb "NON_NULL" "NON_NULL") with true in E; cbn iota in E;
    fold (ftype_of_json_from) in E.
  all: try (rewrite K1, K2 in E; cbn [gbase] in Kd; rewrite Kd in E; inversion E; subst; split; reflexivity).
Qed.
Lemma denote_flat env g n v : valid_gtype g = true -> list_levels g <= 1 -> ~ env n VNull ->
  denote env (mod_expr (flat_mod g) (XName n)) v <-> gvalues (fun _ => env n) g v.
Proof.
  intros V L N. rewrite denote_mod.
  assert (Nn : forall P : value -> Prop, ~ P VNull -> forall v, P v <-> (v = VNull \/ P v) /\ v <> VNull).
  { intros P H w. split; [intros Q; split; auto; intros ->; auto|intros [[->|Q] X]; auto; congruence]. }
  assert (Ln : forall P : value -> Prop, listof P v <-> (v = VNull \/ listof P v) /\ v <> VNull).
  { intros P. apply (Nn (listof P)). intros (l & X & _). discriminate. }
  destruct g as [m|[m|g|[m|g|g]]|[m|[m|g|[m|g|g]]|g]]; cbn in L, V; try lia; try discriminate; cbn [flat_mod sem gvalues].
  - cbn [denote]. tauto.
  - rewrite (listof_ext _ (fun v => v = VNull \/ env n v)) by (intros w; cbn; tauto). unfold listof. tauto.
  - rewrite (listof_ext _ (fun v => (v = VNull \/ env n v) /\ v <> VNull)) by (intros w; cbn; apply (Nn (env n) N)). unfold listof. tauto.
  - cbn [denote]. apply (Nn (env n) N).
  - rewrite (listof_ext _ (fun v => v = VNull \/ env n v)) by (intros w; cbn; tauto). apply Ln.
  - rewrite (listof_ext _ (fun v => (v = VNull \/ env n v) /\ v <> VNull)) by (intros w; cbn; apply (Nn (env n) N)). apply Ln.
Qed.
Lemma denote_wide env g n v : valid_gtype g = true -> list_levels g <= 1 ->
  denote env (mod_expr (flat_mod g) (XName n)) v <-> wide_values (env n) g v.
Proof.
  intros V L. rewrite denote_mod.
  destruct g as [m|[m|g|[m|g|g]]|[m|[m|g|[m|g|g]]|g]]; cbn in L, V; try lia; try discriminate; cbn [flat_mod sem wide_values snug_values].
  - cbn [denote]. tauto.
  - rewrite (listof_ext _ (fun v => v = VNull \/ env n v)) by (intros w; cbn; tauto). unfold listof. tauto.
  - unfold listof. cbn [denote]. tauto.
  - reflexivity.
  - rewrite (listof_ext _ (fun v => v = VNull \/ env n v)) by (intros w; cbn; tauto). reflexivity.
  - reflexivity.
Qed.
Lemma nullable_flat g : valid_gtype g = true -> list_levels g <= 1 -> opt_mod (flat_mod g) = nullable g.
Proof. destruct g as [m|[m|g|[m|g|g]]|[m|[m|g|[m|g|g]]|g]]; cbn; try lia; try discriminate; reflexivity. Qed.

(** Loaded schemas *)
Lemma store_NoDup {A B E} (name : A -> string) (conv : A -> res E B) l : forall m r, NoDup (akeys m) -> store name conv l m = Ok r -> NoDup (akeys r).
Proof.
  induction l as [|x l IH]; intros m r N; cbn; [intros H; inversion H; subst; auto|].
  destruct (conv x); [|discriminate]. apply IH. apply NoDup_aset. auto.
Qed.
Lemma store_keys {A B E} (name : A -> string) (conv : A -> res E B) l : forall m r, store name conv l m = Ok r ->
  forall k, In k (akeys r) <-> In k (akeys m) \/ exists x, In x l /\ name x = k.
Proof.
  induction l as [|x l IH]; intros m r; cbn.
  - intros H; inversion H; subst. intros k. split; auto. intros [?|(x & [] & _)]; auto.
  - destruct (conv x); [|discriminate]. intros H k. rewrite (IH _ _ H), In_akeys_aset. split.
    + intros [[->|I]|(y & I & E0)]; eauto.
    + intros [I|(y & [<-|I] & E0)]; eauto.
Qed.
(** The declaration of input object [n] *)
Definition declares_input (js : jschema) (n : string) (fs : list jfield) : Prop :=
  exists j, last_named jt_name n js j /\ jt_kind j = "INPUT_OBJECT" /\ jt_input_fields j = Some fs.
Lemma loaded_input js s n t nm m : load_schema js = Ok s -> get_type s n = Some t -> st_def t = TInputObject nm m ->
  nm = n /\ NoDup (akeys m) /\
  exists fs, declares_input js n fs /\ (forall k, In k (akeys m) <-> exists j, In j fs /\ jf_name j = k) /\
    forall k j, last_named jf_name k fs j -> exists f, aget k m = Some f /\ field_of_json j = Ok f.
Proof.
  unfold load_schema, get_type. rewrite load_types_store. intros L G D.
  destruct (store_ok jt_name type_of_json bad_type type_err _ _ _ L) as (_ & La & No).
  destruct (named_dec jt_name n js) as [N|(j & Lj)]; [rewrite (No n N) in G; discriminate|].
  destruct (La n j Lj) as (t' & G' & E). rewrite G in G'. inversion G'; subst t'. clear La No G'.
  unfold type_of_json in E.
  repeat match type of E with context [if String.eqb (jt_kind j) ?k then _ else _] =>
    let Ek := fresh "Ek" in destruct (String.eqb (jt_kind j) k) eqn:Ek end.
  all: try (repeat match type of E with context [match ?x with _ => _ end] => destruct x eqn:? end; inversion E; subst; cbn in D; discriminate).
  apply String.eqb_eq in Ek3. destruct (jt_input_fields j) as [fs|] eqn:Ef; [|discriminate].
  unfold get_fields_for_complex in E. rewrite insert_fields_store in E.
  destruct (store jf_name field_of_json fs []) as [m'|] eqn:Em; [|discriminate].
  inversion E; subst. cbn in D. inversion D; subst. clear E D.
  split. { destruct Lj as (pre & suf & _ & X & _). auto. }
  split. { eapply store_NoDup; [|exact Em]. constructor. }
  exists fs. split. { exists j. auto. }
  split. { intros k. rewrite (store_keys _ _ _ _ _ Em). cbn. tauto. }
  destruct (store_ok jf_name field_of_json bad_field field_err _ _ _ Em) as (_ & La & _). exact La.
Qed.
