(** C65: which command lines are accepted, and what they say. *)
From Verif Require Import BaseFacts Worlds.
From Verif Require Import ArgsFacts.
From Coq Require Import NArith Lia.

Lemma entry_set its n a v : Forall named its -> In n value_options -> by_long n = Some a ->
  (In (a, v) (List.map entry its) <-> In (Set_ n v) its).
Proof.
  intros N I B. destruct (set_arg n v I) as [B' T]. split.
  - intro H. apply in_map_iff in H. destruct H as (it & E & J).
    rewrite Forall_forall in N. specialize (N it J). unfold entry in E. injection E as E1 E2.
    destruct it as [d|n' v'|n']; cbn [named] in N.
    + exfalso. cbn [arg_of] in E1. destruct (value_option n I) as (x & Bx & _ & NR). congruence.
    + destruct (set_arg n' v' N) as [B2 _]. rewrite E1 in B2. now rewrite (by_long_inj n n' a B B2), <- E2.
    + exfalso. destruct (flag_option n' N) as (x & Bx & K). cbn [arg_of] in E1. rewrite Bx in E1. subst x.
      assert (a = arg_of (Set_ n v)) by congruence. subst a. unfold takes_value in T. now rewrite K in T.
  - intro J. apply in_map_iff. exists (Set_ n v). split; [|exact J]. unfold entry. cbn [arg_of]. now rewrite B.
Qed.
Lemma entry_flag its n a v : Forall named its -> In n flag_options -> by_long n = Some a ->
  (In (a, v) (List.map entry its) <-> v = "true" /\ In (Flag n) its).
Proof.
  intros N I B. destruct (flag_option n I) as (a' & B' & K). assert (a' = a) by congruence. subst a'. split.
  - intro H. apply in_map_iff in H. destruct H as (it & E & J).
    rewrite Forall_forall in N. specialize (N it J). unfold entry in E. injection E as E1 E2.
    destruct it as [d|n' v'|n']; cbn [named] in N.
    + exfalso. cbn [arg_of] in E1. subst a. discriminate K.
    + exfalso. destruct (set_arg n' v' N) as [B2 T]. rewrite E1 in T. unfold takes_value in T. now rewrite K in T.
    + destruct (flag_option n' N) as (x & Bx & _). cbn [arg_of] in E1. rewrite Bx in E1. subst x.
      rewrite (by_long_inj n n' a B Bx). auto.
  - intros [-> J]. apply in_map_iff. exists (Flag n). split; [|exact J]. unfold entry. cbn [arg_of]. now rewrite B.
Qed.
Lemma entry_dir its v : Forall named its -> (In (ARoot, v) (List.map entry its) <-> In (Dir v) its).
Proof.
  intros N. split.
  - intro H. apply in_map_iff in H. destruct H as (it & E & J).
    rewrite Forall_forall in N. specialize (N it J). unfold entry in E. injection E as E1 E2.
    destruct it as [d|n' v'|n']; cbn [named] in N.
    + now subst d.
    + exfalso. destruct (value_option n' N) as (x & Bx & _ & NR). cbn [arg_of] in E1. rewrite Bx in E1. congruence.
    + exfalso. destruct (flag_option n' N) as (x & Bx & K). cbn [arg_of] in E1. rewrite Bx in E1. subst x. discriminate K.
  - intro J. apply in_map_iff. now exists (Dir v).
Qed.

Lemma found_says its m : Forall named its -> pushes [] its = Some m -> says its (args_from m) (flag m ANoColor).
Proof.
  intros N P. destruct (pushes_found its [] m N P) as (OK & ND & _ & GET0).
  assert (GET : forall a v, aget a m = Some v <-> In (a, v) (List.map entry its)).
  { intros a v. rewrite GET0. cbn. split; [intros [E|E]; [discriminate|exact E]|auto]. }
  assert (S : forall n a, In n value_options -> by_long n = Some a -> sets its n (aget a m)).
  { intros n a I B v. rewrite GET. now apply entry_set. }
  assert (F : forall n a, In n flag_options -> by_long n = Some a -> flags its n (flag m a)).
  { intros n a I B. unfold flags, flag. destruct (aget a m) as [v|] eqn:E.
    - apply GET in E. apply (entry_flag its n a v N I B) in E. tauto.
    - split; [discriminate|]. intro J. assert (X : aget a m = Some "true") by (apply GET, (entry_flag its n a); auto). congruence. }
  constructor; cbn [args_from ca_root_dir ca_config_file ca_schema_path ca_use_custom_scalars ca_custom_scalar_prefix
    ca_root_dir_import_prefix ca_global_types_module_name ca_docnode_module_name ca_disable_readonly_types
    ca_show_deprecation_warnings ca_num_threads].
  all: try (apply S; [cbn; tauto|reflexivity]).
  all: try (apply F; [cbn; tauto|reflexivity]).
  - intro d. rewrite GET. now apply entry_dir.
  - intro n. assert (ST : sets its "num-threads" (aget AThreads m)) by (apply S; [cbn; tauto|reflexivity]).
    unfold sets in ST. destruct (aget AThreads m) as [v|].
    + split.
      * intro R. exists v. split; [now apply ST|now apply read_usize_spec].
      * intros (v' & I & NU). apply ST in I. injection I as ->. now apply read_usize_spec.
    + split; [discriminate|]. intros (v' & I & _). apply ST in I. discriminate I.
Qed.

Lemma opt_ext {A} (o o' : option A) (P : A -> Prop) : (forall v, o = Some v <-> P v) -> (forall v, o' = Some v <-> P v) -> o = o'.
Proof.
  intros H H'. destruct o as [v|]; [symmetry; now apply H', H|]. destruct o' as [v|]; [|reflexivity]. apply H, H'. reflexivity.
Qed.
Lemma bool_ext (b b' : bool) (P : Prop) : (b = true <-> P) -> (b' = true <-> P) -> b = b'.
Proof. intros H H'. destruct b, b'; auto; [symmetry; now apply H', H|now apply H, H']. Qed.
Lemma says_unique its a a' nc nc' : says its a nc -> says its a' nc' -> a = a' /\ nc = nc'.
Proof.
  intros S S'. split; [|exact (bool_ext _ _ _ (says_color _ _ _ S) (says_color _ _ _ S'))].
  pose proof (opt_ext _ _ _ (says_root _ _ _ S) (says_root _ _ _ S')).
  pose proof (opt_ext _ _ _ (says_config _ _ _ S) (says_config _ _ _ S')).
  pose proof (opt_ext _ _ _ (says_schema _ _ _ S) (says_schema _ _ _ S')).
  pose proof (opt_ext _ _ _ (says_prefix _ _ _ S) (says_prefix _ _ _ S')).
  pose proof (opt_ext _ _ _ (says_import _ _ _ S) (says_import _ _ _ S')).
  pose proof (opt_ext _ _ _ (says_globals _ _ _ S) (says_globals _ _ _ S')).
  pose proof (opt_ext _ _ _ (says_nodes _ _ _ S) (says_nodes _ _ _ S')).
  pose proof (opt_ext _ _ _ (says_threads _ _ _ S) (says_threads _ _ _ S')).
  pose proof (bool_ext _ _ _ (says_scalars _ _ _ S) (says_scalars _ _ _ S')).
  pose proof (bool_ext _ _ _ (says_readonly _ _ _ S) (says_readonly _ _ _ S')).
  pose proof (bool_ext _ _ _ (says_deprecations _ _ _ S) (says_deprecations _ _ _ S')).
  destruct a, a'; cbn in *; congruence.
Qed.

Lemma says_complete its a nc : says its a nc -> (complete its <-> cli_args_accepted a = true).
Proof.
  intro S. unfold complete, cli_args_accepted. pose proof (says_prefix _ _ _ S) as P. pose proof (says_scalars _ _ _ S) as F.
  unfold sets, flags in *. destruct (ca_custom_scalar_prefix a) as [p|].
  - split.
    + intro C. apply F. apply (C p). now apply P.
    + intros T q _. now apply F.
  - split; [reflexivity|]. intros _ q I. apply P in I. discriminate I.
Qed.

Definition fresh : matcher := {| mt_found := []; mt_pending := None |}.
Lemma fresh_good : good fresh [].
Proof. split; [reflexivity|]. intros [a W]. discriminate W. Qed.

(** A command line is accepted exactly if it spells settings that are consistent and complete, and it then
    means these settings *)
Theorem C65_exact argv a nc : parse_args argv = URun a nc <->
  exists its, spelled its argv /\ consistent its /\ complete its /\ says its a nc.
Proof.
  unfold parse_args. fold fresh. split.
  - intro E. pose proof (words_sound (List.length argv) argv fresh [] (le_n _) fresh_good) as S.
    destruct (parse_words false fresh argv) as [m| | |]; try discriminate.
    destruct S as (its & SP & P). destruct (cli_args_accepted (args_from m)) eqn:A; [|discriminate].
    injection E as <- <-. exists its. pose proof (spelled_items its argv SP) as N.
    pose proof (found_says its m N P) as SA. split; [exact SP|]. split; [|split; [|exact SA]].
    + apply (consistent_iff its N). eauto.
    + now apply (says_complete its _ _ SA).
  - intros (its & SP & C & CO & SA). pose proof (spelled_items its argv SP) as N.
    apply (consistent_iff its N) in C. destruct C as [m P].
    rewrite (spelled_parses its argv SP fresh [] fresh_good), P. cbn [found].
    pose proof (found_says its m N P) as SA'. destruct (says_unique its _ _ _ _ SA SA') as [-> ->].
    now rewrite (proj1 (says_complete its _ _ SA') CO).
Qed.
Print Assumptions C65_exact.

(** Help and version: what comes before the word that asks for them must be consistent, what comes after
    it does not matter *)
Theorem C65_help argv : parse_args argv = UHelp <->
  exists its ws w rest, argv = ws ++ w :: rest /\ written its ws /\ consistent its /\ asks_help w.
Proof.
  unfold parse_args. fold fresh. split.
  - intro E. pose proof (words_sound (List.length argv) argv fresh [] (le_n _) fresh_good) as S.
    destruct (parse_words false fresh argv) as [m| | |]; try discriminate.
    + destruct (cli_args_accepted (args_from m)); discriminate.
    + destruct S as (its & ws & w & rest & m' & -> & W & A & P). exists its, ws, w, rest.
      split; [reflexivity|]. split; [exact W|]. split; [|exact A]. apply (consistent_iff its (written_items _ _ W)); eauto.
  - intros (its & ws & w & rest & -> & W & C & A). apply (consistent_iff its (written_items _ _ W)) in C. destruct C as [m P].
    destruct (written_help its ws w rest W (or_introl A) fresh [] fresh_good) as [H _]. rewrite (H A), P. reflexivity.
Qed.
Print Assumptions C65_help.
Theorem C65_version argv : parse_args argv = UVersion <->
  exists its ws w rest, argv = ws ++ w :: rest /\ written its ws /\ consistent its /\ asks_version w.
Proof.
  unfold parse_args. fold fresh. split.
  - intro E. pose proof (words_sound (List.length argv) argv fresh [] (le_n _) fresh_good) as S.
    destruct (parse_words false fresh argv) as [m| | |]; try discriminate.
    + destruct (cli_args_accepted (args_from m)); discriminate.
    + destruct S as (its & ws & w & rest & m' & -> & W & A & P). exists its, ws, w, rest.
      split; [reflexivity|]. split; [exact W|]. split; [|exact A]. apply (consistent_iff its (written_items _ _ W)); eauto.
  - intros (its & ws & w & rest & -> & W & C & A). apply (consistent_iff its (written_items _ _ W)) in C. destruct C as [m P].
    destruct (written_help its ws w rest W (or_intror A) fresh [] fresh_good) as [_ H]. rewrite (H A), P. reflexivity.
Qed.
Print Assumptions C65_version.

(** The order of settings and the way each is written do not matter *)
Theorem C65_order its its' argv argv' : spelled its argv -> spelled its' argv' -> Permutation its its' ->
  parse_args argv = parse_args argv'.
Proof.
  assert (X : forall its its' argv argv' a nc, spelled its argv -> spelled its' argv' -> Permutation its its' ->
            parse_args argv = URun a nc -> consistent its -> parse_args argv' = URun a nc).
  { clear. intros its its' argv argv' a nc S S' P E [C1 C2].
    pose proof (spelled_items its argv S) as N.
    destruct (proj1 (consistent_iff its N) (conj C1 C2)) as [m PM].
    assert (E2 : parse_args argv = if cli_args_accepted (args_from m) then URun (args_from m) (flag m ANoColor) else UError).
    { unfold parse_args. fold fresh. now rewrite (spelled_parses its argv S fresh [] fresh_good), PM. }
    rewrite E in E2. destruct (cli_args_accepted (args_from m)) eqn:AC; [|discriminate]. injection E2 as -> ->.
    pose proof (found_says its m N PM) as SA.
    apply C65_exact. exists its'. split; [exact S'|].
    assert (IN : forall x, In x its <-> In x its').
    { intro x. split; apply Permutation_in; [exact P|now symmetry]. }
    split; [split|split].
    - eapply Permutation_Forall; eauto.
    - eapply Permutation_NoDup; [|exact C2]. now apply Permutation_map.
    - apply (says_complete its _ _ SA) in AC. intros p I. apply IN. apply (AC p). now apply IN.
    - destruct SA. constructor; unfold sets, flags in *; intros; rewrite <- ?IN; auto.
      rewrite says_threads. split; intros (v & I & NU); exists v; split; auto; now apply IN. }
  intros S S' P.
  pose proof (spelled_items its argv S) as N. pose proof (spelled_items its' argv' S') as N'.
  assert (R : forall its argv, spelled its argv -> Forall named its ->
            (exists a nc, parse_args argv = URun a nc /\ consistent its) \/ parse_args argv = UError).
  { clear. intros its argv S N. unfold parse_args. fold fresh. rewrite (spelled_parses its argv S fresh [] fresh_good).
    destruct (pushes [] its) as [m|] eqn:PM; cbn [found]; [|auto].
    destruct (cli_args_accepted (args_from m)); [|auto]. left. do 2 eexists. split; [reflexivity|].
    apply consistent_iff; eauto. }
  destruct (R _ _ S N) as [(a & nc & E & C)|E].
  - rewrite E. symmetry. now apply (X its its' argv argv').
  - destruct (R _ _ S' N') as [(a & nc & E' & C)|E']; [|congruence].
    assert (E2 : parse_args argv = URun a nc) by (apply (X its' its argv' argv); auto; now symmetry). congruence.
Qed.
Print Assumptions C65_order.

(** The process: a wrong command line ends it with code 2, help and version with code 0, in both cases with
    all files as they were; otherwise qlc runs with settings that meet what the other claims assume *)
Theorem C65_process help version fuel wo argv sched :
  (parse_args argv = UError -> qlc_command help version fuel wo argv sched = Exited 2 "" (wo_fs wo)) /\
  (parse_args argv = UHelp -> qlc_command help version fuel wo argv sched = Exited 0 help (wo_fs wo)) /\
  (parse_args argv = UVersion -> qlc_command help version fuel wo argv sched = Exited 0 version (wo_fs wo)) /\
  (forall a nc, parse_args argv = URun a nc ->
     qlc_command help version fuel wo argv sched = qlc fuel wo a sched /\ cli_args_accepted a = true /\
     ca_root_dir a <> Some "" /\ ca_config_file a <> Some "" /\ ca_schema_path a <> Some "").
Proof.
  unfold qlc_command. repeat split; try (intros E; now rewrite E).
  - now rewrite H.
  - apply C65_exact in H. destruct H as (its & _ & _ & C & S). now apply (says_complete its _ _ S).
  - apply C65_exact in H. destruct H as (its & _ & [C _] & _ & S). intro E. apply (says_root _ _ _ S) in E.
    rewrite Forall_forall in C. specialize (C _ E). now apply C.
  - apply C65_exact in H. destruct H as (its & _ & [C _] & _ & S). intro E. apply (says_config _ _ _ S) in E.
    rewrite Forall_forall in C. destruct (C _ E) as (_ & NE & _). apply NE; [cbn; tauto|reflexivity].
  - apply C65_exact in H. destruct H as (its & _ & [C _] & _ & S). intro E. apply (says_schema _ _ _ S) in E.
    rewrite Forall_forall in C. destruct (C _ E) as (_ & NE & _). apply NE; [cbn; tauto|reflexivity].
Qed.
Print Assumptions C65_process.

(** Settings can always be written down: any consistent and complete list of items is, in some order, what
    a command line spells *)
Definition is_dir (it : item) : bool := match it with Dir _ => true | _ => false end.
Lemma partition_perm {A} (f : A -> bool) l : Permutation l (filter (fun x => negb (f x)) l ++ filter f l).
Proof.
  induction l as [|x l IH]; cbn; [constructor|]. destruct (f x); cbn.
  - now apply Permutation_cons_app.
  - now constructor.
Qed.
Lemma write_options its : Forall item_ok its -> exists ws, written (filter (fun x => negb (is_dir x)) its) ws.
Proof.
  induction 1 as [|it its OK _ [ws W]]; [exists []; constructor|].
  destruct it as [d|n v|n]; cbn [filter is_dir negb].
  - now exists ws.
  - exists (["--" +++ n +++ "=" +++ v] ++ ws). constructor; [|exact W]. constructor. apply OK.
  - exists (["--" +++ n] ++ ws). constructor; [|exact W]. constructor. apply OK.
Qed.
Lemma one_dir its : NoDup (List.map subject its) -> filter is_dir its = [] \/ exists d, filter is_dir its = [Dir d].
Proof.
  induction its as [|it its IH]; cbn; [auto|]. intro ND. inversion_clear ND as [|? ? NI ND'].
  destruct it as [d|n v|n]; cbn [is_dir]; auto. right. exists d. f_equal.
  destruct (IH ND') as [E|[d' E]]; [exact E|]. exfalso. apply NI. apply in_map_iff. exists (Dir d'). split; [reflexivity|].
  assert (I : In (Dir d') (filter is_dir its)) by (rewrite E; now left). now apply filter_In in I.
Qed.
Theorem C65_expressible its : consistent its -> complete its ->
  exists argv a nc, parse_args argv = URun a nc /\ says its a nc.
Proof.
  intros [OK ND] CO. destruct (write_options its OK) as [ws W].
  set (its' := filter (fun x => negb (is_dir x)) its ++ filter is_dir its).
  assert (P : Permutation its its') by apply partition_perm.
  assert (S : exists argv, spelled its' argv).
  { unfold its'. destruct (one_dir its ND) as [E|[d E]]; rewrite E.
    - rewrite app_nil_r. exists ws. now constructor.
    - exists (ws ++ ["--"; d]). now constructor. }
  destruct S as [argv S]. pose proof (spelled_items its' argv S) as N.
  assert (C' : consistent its').
  { split; [eapply Permutation_Forall; eauto|]. eapply Permutation_NoDup; [|exact ND]. now apply Permutation_map. }
  destruct (proj1 (consistent_iff its' N) C') as [m PM]. pose proof (found_says its' m N PM) as SA.
  assert (IN : forall x, In x its <-> In x its').
  { intro x. split; apply Permutation_in; [exact P|now symmetry]. }
  exists argv, (args_from m), (flag m ANoColor). split.
  - apply C65_exact. exists its'. split; [exact S|]. split; [exact C'|]. split; [|exact SA].
    intros p I. apply IN. apply (CO p). now apply IN.
  - destruct SA. constructor; unfold sets, flags in *; intros; rewrite ?IN; auto.
    rewrite says_threads. split; intros (v & I & NU); exists v; split; auto; now apply IN.
Qed.
Print Assumptions C65_expressible.

(** ** Examples: the command lines of README.md and of tests/, and others *)
Definition usage_dirs (u : usage) : option (option string * option string) :=
  match u with URun a _ => Some (ca_root_dir a, ca_schema_path a) | _ => None end.
Example readme_1 : usage_dirs (parse_args ["-s"; "my_schema.json"; "src"]) = Some (Some "src", Some "my_schema.json").
Proof. reflexivity. Qed.
Example readme_2 : parse_args ["--help"] = UHelp.
Proof. reflexivity. Qed.
Example readme_3 : match parse_args ["--typed-graphql-documentnode-module-name"; "my-typenode"] with
                   | URun a _ => ca_docnode_module_name a | _ => None end = Some "my-typenode".
Proof. reflexivity. Qed.
Example tests_1 : match parse_args ["--global-types-module-name=@web/graphql_globals"; "--root-dir-import-prefix=@web/";
                                    "--typed-graphql-documentnode-module-name=@web/typed_node"] with
                  | URun a nc => Some (ca_global_types_module_name a, ca_root_dir_import_prefix a, nc) | _ => None end
                  = Some (Some "@web/graphql_globals", Some "@web/", false).
Proof. reflexivity. Qed.
Example threads_plus : match parse_args ["--num-threads=+12"; "--no-color"; "--"; "-x"] with
                       | URun a nc => Some (ca_num_threads a, ca_root_dir a, nc) | _ => None end
                       = Some (Some 12, Some "-x", true).
Proof. reflexivity. Qed.
Example too_big : parse_args ["--num-threads"; "18446744073709551616"] = UError.
Proof. reflexivity. Qed.
Example refused :
  List.map parse_args [["-s"]; ["-s"; "-c"; "x"]; ["a"; "b"]; ["--no-color"; "--no-color"]; ["--no-color=yes"];
                       ["--custom-scalar-prefix"; "X"]; ["--num-threads=-1"]; ["--num-threads"; "-1"]; ["-s="]; [""];
                       ["--schema"; "x"]; ["-x"]; ["--="]; ["-c"; "--"; "x"]; ["--use_custom_scalars"]]
  = List.map (fun _ => UError) (seq 0 15).
Proof. reflexivity. Qed.
(** Help comes before a missing requirement, but not before an error on its left *)
Example help_first : parse_args ["--custom-scalar-prefix"; "X"; "-h"] = UHelp /\
                     parse_args ["--num-threads"; "X"; "-h"] = UError /\ parse_args ["-Vh"] = UVersion.
Proof. repeat split. Qed.

Definition ex_items : list item := [Flag "use-custom-scalars"; Set_ "custom-scalar-prefix" "-X"; Dir "a b"; Set_ "num-threads" "4"].
Example C65_nonvacuous : consistent ex_items /\ complete ex_items /\
  spelled ex_items ["--use-custom-scalars"; "--custom-scalar-prefix=-X"; "a b"; "--num-threads"; "4"].
Proof.
  split; [split|split].
  - unfold ex_items. apply Forall_cons; [|apply Forall_cons; [|apply Forall_cons; [|apply Forall_cons; [|constructor]]]].
    + cbn. tauto.
    + split; [cbn; tauto|]. split; [intros _ E; discriminate E|]. intros [E|[]]. discriminate E.
    + discriminate.
    + split; [cbn; tauto|]. split; [intros _ E; discriminate E|].
      intros _. exists 4. split; [|reflexivity]. exists "4". split; [now left|]. apply (dec_one "4" 4). split; [lia|reflexivity].
  - cbn. repeat constructor; cbn; intuition discriminate.
  - intros p [E|[E|[E|[E|[]]]]]; try discriminate. now left.
  - apply spelled_plain.
    apply (written_cons _ ["--use-custom-scalars"]); [apply (iw_flag "use-custom-scalars"); cbn; tauto|].
    apply (written_cons _ ["--custom-scalar-prefix=-X"]); [apply (iw_equals "custom-scalar-prefix"); cbn; tauto|].
    apply (written_cons _ ["a b"]); [constructor; intros r E; discriminate E|].
    apply (written_cons _ ["--num-threads"; "4"] [] []); [|constructor].
    apply (iw_next "num-threads"); [cbn; tauto|intros r E; discriminate E].
Qed.
