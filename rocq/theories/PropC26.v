(** C26: input object fields. *)
From Verif Require Import InputFacts PropC24 Worlds.

(** The line written for a field [k] declared as [j] with type reference [g] over a named type of kind
    [kind]: name, question mark exactly when null is allowed, and a type expression for exactly the
    values of [g] *)
Definition field_line_ok (c : cconfig) (k : string) (j : jfield) (kind : string) (g : gtype) (l : string) : Prop :=
  exists docs ty e,
    l = "  " +++ docs +++ k +++ (if nullable g then "?: " else ": ") +++ ty +++ ";" /\
    docs = compile_documentation (option_map normalize_doc (jf_description j))
             (match jf_deprecated j with Some true => true | _ => false end) 2 /\
    reads ty e /\
    forall env, ~ env (input_base (cc_bottom c) kind (gbase g)) VNull ->
      forall v, denote env e v <-> gvalues (fun _ => env (input_base (cc_bottom c) kind (gbase g))) g v.

(** Full statement (false of the code): for every valid [g].  Proved for at most one list level. *)
Theorem C26_field_partial : forall c k j kind g,
  In kind ["SCALAR"; "ENUM"; "INPUT_OBJECT"] -> valid_gtype g = true -> list_levels g <= 1 ->
  jf_type j = json_of kind g -> is_name (input_base (cc_bottom c) kind (gbase g)) ->
  exists f l, field_of_json j = Ok f /\ input_field_line c (k, f) = Ok l /\ field_line_ok c k j kind g l.
Proof.
  intros c k j kind g K V L E N. destruct (input_kind_field kind g K mb_new) as (ft & Eft & _ & T).
  destruct (flat_mod_ok kind g ft K V L Eft) as (Em & Er).
  unfold field_of_json. rewrite E. unfold ftype_of_json. rewrite Eft. eexists. eexists. split; [reflexivity|].
  split. { apply input_line_text. apply T. reflexivity. }
  cbn [sf_type sf_doc sf_deprecated]. rewrite Em. exists (compile_documentation (option_map normalize_doc (jf_description j))
             (match jf_deprecated j with Some true => true | _ => false end) 2).
  set (n := input_base (cc_bottom c) kind (gbase g)) in *.
  exists (single_prop_type_def (flat_mod g) n), (mod_expr (flat_mod g) (XName n)).
  split.
  { rewrite nullable_flat; auto. do 2 f_equal. destruct (jf_deprecated j) as [[|]|]; reflexivity. }
  split; [reflexivity|]. split.
  - change n with (print_texpr (XName n)) at 1. rewrite <- print_mod. apply reads_print. apply wf_mod; cbn; auto.
  - intros env Hn v. apply denote_flat; auto.
Qed.
Print Assumptions C26_field_partial.

(** With two or more list levels the written type always rejects a value GraphQL allows *)
Theorem C26_exact : forall c k j kind g,
  In kind ["SCALAR"; "ENUM"; "INPUT_OBJECT"] -> valid_gtype g = true -> 2 <= list_levels g ->
  jf_type j = json_of kind g -> is_name (input_base (cc_bottom c) kind (gbase g)) ->
  exists f docs q ty e, field_of_json j = Ok f /\
    input_field_line c (k, f) = Ok ("  " +++ docs +++ k +++ q +++ ty +++ ";") /\ reads ty e /\
    forall env, (forall n l, ~ env n (VList l)) ->
      exists v, gvalues (fun _ => env (input_base (cc_bottom c) kind (gbase g))) g v /\ ~ denote env e v.
Proof.
  intros c k j kind g K V L E N. destruct (input_kind_field kind g K mb_new) as (ft & Eft & _ & T).
  unfold field_of_json. rewrite E. unfold ftype_of_json. rewrite Eft.
  set (n := input_base (cc_bottom c) kind (gbase g)) in *.
  eexists. do 2 eexists. exists (single_prop_type_def (ft_mod ft) n), (mod_expr (ft_mod ft) (XName n)). split; [reflexivity|].
  split. { rewrite input_line_text with (t := n); [reflexivity|]. apply T. reflexivity. }
  split.
  - change n with (print_texpr (XName n)) at 1. rewrite <- print_mod. apply reads_print. apply wf_mod; cbn; auto.
  - intros env Hn. destruct (list_levels g) as [|[|d]] eqn:Eg; [lia|lia|].
    exists (nest (S d)). split.
    + apply gvalues_nest. exact Eg.
    + intros H. apply denote_nest in H; auto. rewrite arrays_mod in H. destruct (ft_mod ft); cbn in H; lia.
Qed.
Print Assumptions C26_exact.

(** Each input object lists every declared field exactly once (its last declaration), sorted by name *)
Theorem C26_listing : forall js s c n t m d, load_schema js = Ok s -> get_type s n = Some t ->
  st_def t = TInputObject n m -> def_text c n t d ->
  exists fs names ls, declares_input js n fs /\ NoDup names /\ sorted_by (fun k => k) names /\
    (forall k, In k names <-> exists j, In j fs /\ jf_name j = k) /\
    d = "export type " +++ n +++ " = {" +++ nl +++ join nl ls +++ nl +++ "};" /\
    Forall2 (fun k l => exists j f, last_named jf_name k fs j /\ field_of_json j = Ok f /\ input_field_line c (k, f) = Ok l) names ls.
Proof.
  intros js s c n t m d L G E D. destruct (loaded_input js s n t n m L G E) as (_ & N & fs & Dc & Ks & La).
  inversion D as [vs ws E' Pm S0|fields gs ls E' Pm S0 F]; subst; [congruence|]. rewrite E in E'. inversion E'; subst fields.
  exists fs, (List.map fst gs), ls.
  assert (Ng : NoDup (List.map fst gs)). { eapply Permutation_NoDup; [apply Permutation_map; exact Pm|exact N]. }
  split; auto. split; auto. split.
  { clear - S0. induction S0; cbn; constructor; auto. rewrite Forall_map. auto. }
  split.
  { intros k. rewrite <- Ks. unfold akeys. split; intros I.
    - eapply Permutation_in; [apply Permutation_map; apply Permutation_sym; exact Pm|exact I].
    - eapply Permutation_in; [apply Permutation_map; exact Pm|exact I]. }
  split; [reflexivity|].
  assert (Q : Forall (fun x => In x m) gs).
  { apply Forall_forall. intros x I. apply (Permutation_in _ (Permutation_sym Pm)). auto. }
  clear S0 Pm E' E D G Ng. induction F as [|[k f] l gs ls Hl F IH]; cbn; constructor; inversion Q; subst; auto.
  cbn. assert (Ik : In k (akeys m)) by (apply (in_map fst) in H1; exact H1).
  destruct (named_dec jf_name k fs) as [Nn|(j & Lj)].
  - exfalso. apply Ks in Ik. destruct Ik as (j & Ij & <-). apply (Nn j); auto.
  - destruct (La k j Lj) as (f' & Gf & Ef). exists j, f'. split; auto. split; auto.
    assert (f' = f); [|subst; auto]. apply (In_aget k f m N) in H1. congruence.
Qed.
Print Assumptions C26_listing.

(** The claim as stated fails: a required list of required lists of numbers becomes a required number *)
Theorem C26_refuted : exists kind g, In kind ["SCALAR"; "ENUM"; "INPUT_OBJECT"] /\ valid_gtype g = true /\
  forall c k j f, jf_type j = json_of kind g -> field_of_json j = Ok f ->
    ~ exists l, input_field_line c (k, f) = Ok l /\ field_line_ok c k j kind g l.
Proof.
  exists "SCALAR", (GList (GNonNull (GList (GNonNull (GNamed "Int"))))).
  split; [cbn; auto|]. split; [reflexivity|]. intros c k j f E Ef (l & El & docs & ty & e & X & -> & R & D).
  unfold field_of_json in Ef. rewrite E in Ef. cbn in Ef. inversion Ef; subst f. clear Ef.
  erewrite input_line_text in El; [|reflexivity]. cbn [sf_type sf_doc sf_deprecated ft_mod opt_mod nullable] in El, X.
  inversion El as [X']. rewrite X in X'. clear El X.
  replace (match jf_deprecated j with Some true => true | _ => false end) with
    (match jf_deprecated j with Some b => b | None => false end) in X' by (destruct (jf_deprecated j) as [[|]|]; reflexivity).
  set (dd := compile_documentation _ _ 2) in X'. clearbody dd. cbn in X'. inversion X' as [X2].
  apply sapp_inj_l in X2. apply sapp_inj_l in X2. discriminate.
Qed.
Print Assumptions C26_refuted.

(** Non-vacuity *)
Example C26_nonvacuous : exists f, field_of_json (plain_field "x" (json_of "ENUM" (GList (GNonNull (GNamed "E"))))) = Ok f /\
  forall c, input_field_line c ("x", f) = Ok "  x?: E[] | null;".
Proof. eexists. split; [reflexivity|]. intros c. reflexivity. Qed.
Example C26_nonvacuous_listing : exists t m, get_type input_schema "A" = Some t /\ st_def t = TInputObject "A" m /\
  List.map fst m = ["b"; "i"].
Proof. repeat eexists. Qed.
