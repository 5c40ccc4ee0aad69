(** C63: suggestions for a mistyped name are exactly the existing names at most two typing mistakes away. *)
From Verif Require Import DefFacts Graphql GraphqlFacts SelWorlds Worlds ImportWorlds PropC06 SpecEdit EditFacts StrsimFacts.

(** The number strsim computes is the least number of changes leading from one word to the other:
    added, removed, replaced bytes and exchanged neighbours, in any number and any order *)
Theorem C63_distance : forall a b n,
  damerau_levenshtein a b <= n <-> exists m, m <= n /\ edits m a b.
Proof. apply distance_least. Qed.
Print Assumptions C63_distance.

Lemma similar_iff name x : similar_names name x = true <-> mistakes 2 name x.
Proof.
  unfold similar_names, mistakes. rewrite Nat.ltb_lt, <- C63_distance. lia.
Qed.

(** What a help text has to say about [name], when the names in [K] exist; [otherwise] when none is
    close *)
Inductive suggestion (K : string -> Prop) (name otherwise : string) : string -> Prop :=
| su_none : (forall x, K x -> ~ mistakes 2 name x) -> suggestion K name otherwise otherwise
| su_some l : l <> [] -> (forall x, In x l <-> K x /\ mistakes 2 name x) ->
    suggestion K name otherwise (" Did you mean one of the following: `" +++ join "`, `" l +++ "`?").

(** [similar_help_suggestions]: the close names, in the given order and as often as they are given *)
Theorem C63_suggestions : forall name possible,
  match similar_help similar_names name possible with
  | None => forall x, In x possible -> ~ mistakes 2 name x
  | Some text => exists keep, (forall x, In x possible -> (keep x = true <-> mistakes 2 name x)) /\
      filter keep possible <> [] /\
      text = " Did you mean one of the following: `" +++ join "`, `" (filter keep possible) +++ "`?"
  end.
Proof.
  intros name possible. unfold similar_help.
  assert (S : forall x, similar_names name x = true <-> mistakes 2 name x) by (intros; apply similar_iff).
  destruct (filter (similar_names name) possible) as [|y l] eqn:E.
  - intros x I M. apply S in M. assert (J : In x []) by (rewrite <- E; apply filter_In; auto). destruct J.
  - exists (similar_names name). split; [auto|]. rewrite E. split; [discriminate|reflexivity].
Qed.
Print Assumptions C63_suggestions.

Lemma similar_suggestion K name possible otherwise :
  (forall x, In x possible <-> K x) ->
  suggestion K name otherwise
    (match similar_help similar_names name possible with Some h => h | None => otherwise end).
Proof.
  intros H. pose proof (C63_suggestions name possible) as S.
  destruct (similar_help similar_names name possible) as [t|].
  - destruct S as (keep & Hk & Ne & ->). apply su_some; auto. intros x. rewrite filter_In, H. split.
    + intros [I Kx]. split; [auto|]. apply Hk; auto. apply H. auto.
    + intros [I Mx]. split; [auto|]. apply Hk; auto. apply H. auto.
  - apply su_none. intros x I. apply S. apply H. auto.
Qed.

(** A file that selects a field its type does not have: nothing is written, and a message at the
    field's position suggests exactly the fields of that type at most two mistakes away *)
Theorem C63_field : forall fuel e f c s path f' r contents d im ms0 P l P' p al n a ds sub,
  (forall q, order_ok (env_order e q)) -> consistent s -> env_similar e = similar_names ->
  compile_file fuel e f c s path = Done (f', r) ->
  read_file e f path = Ok contents -> parse_file e contents path = Ok d ->
  add_imports fuel e f c path contents [] [] = Done (im, ms0) ->
  doc_root d = Some (P, l) -> is_subscription d = false -> composite s P ->
  within s P l P' (SField p al n a ds sub) -> (forall fd, ~ field_of s P' n fd) ->
  f' = f /\ exists ms extra, r = Err ms /\
    suggestion (fun x => exists fd, field_of s P' x fd) n "" extra /\
    In (located_message CompileError ("unknown field `" +++ n +++ "`") path contents p
          (Some ("Check the fields of `" +++ P' +++ "`." +++ extra))) ms.
Proof.
  intros fuel e f c s path f' r contents d im ms0 P l P' p al n a ds sub O Co Es H Er Ep Ei Dr Su C W B.
  destruct (C06_file fuel e f c s path f' r contents d im ms0 P l P' _ O Co H Er Ep Ei Dr Su C W
              (bad_unknown_field _ _ _ _ _ _ _ _ _ B)) as (-> & ms & er & -> & Ce & I).
  split; [auto|]. exists ms. inversion Ce; subst;
    try (match goal with X : field_of s P' n ?y |- _ => exfalso; apply (B y); exact X end).
  rewrite Es in I. cbn [ir_error_message] in I. eexists. split; [auto|]. split; [|exact I].
  apply similar_suggestion. auto.
Qed.
Print Assumptions C63_field.

(** The same for a spread of a fragment that is not in scope; there the default is to ask for an
    import *)
Theorem C63_fragment : forall fuel e f c s path f' r contents d im ms0 P l P' p n ds,
  (forall q, order_ok (env_order e q)) -> consistent s -> env_similar e = similar_names ->
  compile_file fuel e f c s path = Done (f', r) ->
  read_file e f path = Ok contents -> parse_file e contents path = Ok d ->
  add_imports fuel e f c path contents [] [] = Done (im, ms0) ->
  doc_root d = Some (P, l) -> is_subscription d = false -> composite s P ->
  let frags := fst (parse_foreign e path im ms0) in
  within s P l P' (SSpread p n ds) -> aget n frags = None ->
  f' = f /\ exists ms extra, r = Err ms /\
    suggestion (fun x => exists fd, aget x frags = Some fd) n " Did you forget to import it?" extra /\
    In (located_message CompileError ("unknown spread fragment name `" +++ n +++ "`") path contents p
          (Some ("This fragment name doesn't appear to be in scope." +++ extra))) ms.
Proof.
  intros fuel e f c s path f' r contents d im ms0 P l P' p n ds O Co Es H Er Ep Ei Dr Su C frags W B.
  destruct (C06_file fuel e f c s path f' r contents d im ms0 P l P' _ O Co H Er Ep Ei Dr Su C W
              (bad_fragment _ _ _ _ _ _ B)) as (-> & ms & er & -> & Ce & I).
  split; [auto|]. exists ms. inversion Ce; subst.
  rewrite Es in I. cbn [ir_error_message] in I. eexists. split; [auto|]. split; [|exact I].
  apply similar_suggestion. auto.
Qed.
Print Assumptions C63_fragment.

(** Nearness has no direction, and a name is near itself *)
Theorem C63_symmetric : forall name x, similar_names name x = similar_names x name.
Proof.
  assert (F : forall n a b, edits n a b -> edits n b a).
  { assert (G : forall a b, edit1 a b -> edit1 b a) by (intros a b H; destruct H; constructor).
    induction 1 as [|n a b c H IH E]; [constructor|].
    change (S n) with (1 + n). eapply edits_trans; [apply edits_one, G; eauto|auto]. }
  intros name x. apply eq_true_iff_eq. rewrite !similar_iff. unfold mistakes.
  split; intros (m & L & H); exists m; auto.
Qed.
Print Assumptions C63_symmetric.

(** Non-vacuity: "naem" is one mistake from "name" and two from "names"; three mistakes are too many *)
Example C63_examples :
  similar_names "naem" "name" = true /\ similar_names "naem" "names" = true /\
  similar_names "naem" "nmeas" = false /\ similar_names "id" "wing" = false /\
  similar_help similar_names "naem" ["id"; "name"; "pets"; "names"]
  = Some " Did you mean one of the following: `name`, `names`?".
Proof. vm_compute. repeat split; reflexivity. Qed.

(** A file with the mistyped field "naem" of a pet *)
Definition C63_env : env :=
  {| env_parse := fun _ => Ok [query [node 2 "me" [on 3 "User" [node 4 "pets" [leaf 5 "naem"]]]]];
     env_locate := fun p => p; env_write := fun _ => WOk; env_similar := similar_names;
     env_order := fun _ => plain_order |}.

Example C63_nonvacuous :
  exists c f' m, within zoo "Query" [node 2 "me" [on 3 "User" [node 4 "pets" [leaf 5 "naem"]]]] "Pet" (leaf 5 "naem") /\
  (forall fd, ~ field_of zoo "Pet" "naem" fd) /\
  compile_file 20 C63_env (one_file "./q.graphql" "text") c zoo "./q.graphql" = Done (f', Err [m]) /\
  ms_text m = "unknown field `naem`" /\
  option_map (fun s => option_map lo_help (snd s)) (ms_source m)
  = Some (Some (Some "Check the fields of `Pet`. Did you mean one of the following: `name`?")).
Proof.
  assert (F1 : exists f, field_of zoo "Query" "me" f /\ ft_name (sf_type f) = "User").
  { eexists. split; [eexists; split; [vm_compute; reflexivity|vm_compute; reflexivity]|reflexivity]. }
  assert (F2 : exists f, field_of zoo "User" "pets" f /\ ft_name (sf_type f) = "Pet").
  { eexists. split; [eexists; split; [vm_compute; reflexivity|vm_compute; reflexivity]|reflexivity]. }
  destruct F1 as (f1 & F1 & E1). destruct F2 as (f2 & F2 & E2).
  eexists tiny_config, _, _. split; [|split; [|split; [|split]]].
  - eapply wi_field; [left; reflexivity|exact F1| |]; rewrite E1; [apply compositeb_ok; reflexivity|].
    eapply wi_inline; [left; reflexivity|apply compositeb_ok; reflexivity|].
    eapply wi_field; [left; reflexivity|exact F2| |]; rewrite E2; [apply compositeb_ok; reflexivity|].
    apply wi_here. left; reflexivity.
  - intros f (t & E & F). vm_compute in E. inversion E; subst. cbn in F. discriminate.
  - vm_compute. reflexivity.
  - reflexivity.
  - reflexivity.
Qed.
