(** C22: scalar mapping. *)
From Verif Require Import Typescript Worlds SpecLoad.

(** The table: TypeScript type of a scalar type name under a configuration *)
Definition scalar_text (b : bottom_config) (n : string) : string :=
  if existsb (String.eqb n) ["String"; "ID"] then "string"
  else if existsb (String.eqb n) ["Int"; "Float"] then "number"
  else if existsb (String.eqb n) ["Boolean"] then "boolean"
  else match b with BottomAny => "any" | BottomReal => n | BottomPrefix s => s +++ n end.

Lemma base_scalar_from j k n : base_of j k n -> k = "SCALAR" ->
  forall b, exists t, ftype_of_json_from b j = Ok t /\ ft_name t = n /\ ft_def t = FDScalar (scalar_of_name n).
Proof.
  induction 1 as [k n o N1 N2|w n j k b0 W B IH]; intros E b.
  - subst k. eexists. cbn. eauto.
  - specialize (IH E). destruct W as [-> | ->]; cbn; apply IH.
Qed.
Lemma scalar_ts_spec c n : scalar_ts c (scalar_of_name n) = scalar_text (cc_bottom c) n.
Proof.
  unfold scalar_of_name, scalar_text. cbn [existsb].
  destruct (String.eqb n "Boolean") eqn:E1; [apply String.eqb_eq in E1; subst; reflexivity|].
  destruct (String.eqb n "String") eqn:E2; [reflexivity|].
  destruct (String.eqb n "Float") eqn:E3; [apply String.eqb_eq in E3; subst; reflexivity|].
  destruct (String.eqb n "Int") eqn:E4; [apply String.eqb_eq in E4; subst; reflexivity|].
  destruct (String.eqb n "ID") eqn:E5; reflexivity.
Qed.
Lemma compile_scalar_spec c n : compile_scalar c (scalar_of_name n) = scalar_text (cc_bottom c) n.
Proof. rewrite <- scalar_ts_spec. destruct (scalar_of_name n); reflexivity. Qed.

(** Result types: a field whose type reference is any wrapping of the scalar [n] is rendered with the
    table's type, declares nothing and uses no global type *)
Theorem C22_result : forall j n, base_of j "SCALAR" n ->
  exists t, ftype_of_json j = Ok t /\ ft_name t = n /\
    forall c o f, sf_type f = t ->
      type_ir o [] f (FTerm n) = Ok (IScalar (scalar_of_name n)) /\
      forall p cname sub g,
        ts_type c o (IScalar (scalar_of_name n)) p cname sub g = Ok ([], scalar_text (cc_bottom c) n, g).
Proof.
  intros j n B. destruct (base_scalar_from _ _ _ B eq_refl mb_new) as (t & E & En & Ed).
  exists t. split; [exact E|]. split; [exact En|]. intros c o f Ef. split.
  - cbn [type_ir]. rewrite Ef, Ed. reflexivity.
  - intros p cname sub g. cbn [ts_type]. rewrite scalar_ts_spec. reflexivity.
Qed.
Print Assumptions C22_result.

(** Input objects: the same type text *)
Theorem C22_input : forall j n, base_of j "SCALAR" n ->
  exists t, ftype_of_json j = Ok t /\ ft_name t = n /\
    forall c name f, sf_type f = t -> input_field_type c name f = Ok (scalar_text (cc_bottom c) n).
Proof.
  intros j n B. destruct (base_scalar_from _ _ _ B eq_refl mb_new) as (t & E & En & Ed).
  exists t. split; [exact E|]. split; [exact En|]. intros c name f Ef.
  unfold input_field_type. rewrite Ef, Ed, compile_scalar_spec. reflexivity.
Qed.
Print Assumptions C22_input.

(** Variables: a variable whose named type is a built-in scalar, or a type the schema declares as a
    scalar, gets the same type text and uses no global type *)
Theorem C22_variable : forall c s n p v g,
  existsb (String.eqb n) ["String"; "ID"; "Int"; "Float"; "Boolean"] = true \/
  (exists t m, get_type s n = Some t /\ st_def t = TScalar m) ->
  forall vt, vtype_of_name s n p = Ok vt -> v_type v = vt ->
  variable_type_name c s v g = Ok (scalar_text (cc_bottom c) n, g).
Proof.
  intros c s n p v g Sc vt Ev Et. unfold variable_type_name. rewrite Et. clear Et.
  unfold vtype_of_name in Ev. unfold scalar_text. cbn [existsb] in *.
  destruct (String.eqb n "ID") eqn:E1; [inversion Ev; rewrite orb_true_r; reflexivity|].
  destruct (String.eqb n "String") eqn:E2; [inversion Ev; reflexivity|].
  destruct (String.eqb n "Float") eqn:E3; [inversion Ev; rewrite orb_true_r; reflexivity|].
  destruct (String.eqb n "Int") eqn:E4; [inversion Ev; reflexivity|].
  destruct (String.eqb n "Boolean") eqn:E5; [inversion Ev; reflexivity|].
  destruct Sc as [Sc|(t & m & Eg & Ed)]; [discriminate|].
  rewrite Eg in Ev. inversion Ev; subst. rewrite Eg, Ed. reflexivity.
Qed.
Print Assumptions C22_variable.

(** ... and such a variable type is always accepted *)
Theorem C22_variable_accepted : forall s n p,
  existsb (String.eqb n) ["String"; "ID"; "Int"; "Float"; "Boolean"] = true \/ get_type s n <> None ->
  exists vt, vtype_of_name s n p = Ok vt.
Proof.
  intros s n p Sc. unfold vtype_of_name. cbn [existsb] in Sc.
  destruct (String.eqb n "ID"); [eauto|]. destruct (String.eqb n "String"); [eauto|].
  destruct (String.eqb n "Float"); [eauto|]. destruct (String.eqb n "Int"); [eauto|].
  destruct (String.eqb n "Boolean"); [eauto|].
  destruct Sc as [Sc|Sc]; [discriminate|]. destruct (get_type s n); [eauto|congruence].
Qed.
Print Assumptions C22_variable_accepted.

(** Non-vacuity *)
Example C22_nonvacuous_result : base_of (nonnull (JT "LIST" None (Some (named_type "SCALAR" "Date")))) "SCALAR" "Date".
Proof. repeat (constructor; try (intuition discriminate)). Qed.
Example C22_nonvacuous_text :
  scalar_text (BottomPrefix "GQL") "Date" = "GQLDate" /\ scalar_text BottomReal "ID" = "string" /\
  scalar_text BottomAny "Date" = "any" /\ scalar_text BottomAny "Int" = "number".
Proof. vm_compute. auto. Qed.
Example C22_nonvacuous_variable :
  exists t m, get_type [("Date", {| st_doc := None; st_def := TScalar "Date" |})] "Date" = Some t /\ st_def t = TScalar m.
Proof. repeat eexists. Qed.
