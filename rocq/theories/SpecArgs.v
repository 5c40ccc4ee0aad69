(** Specification of command lines: which words spell which settings.  Independent of Args.v: option names
    are written out, settings are a list of items, the parsing algorithm does not occur. *)
From Verif Require Export Cli.
From Coq Require Import NArith.

Inductive item : Type :=
| Dir (d : string)                 (* the directory to compile *)
| Set_ (name value : string)       (* an option with a value *)
| Flag (name : string).            (* an option without *)

Definition path_options : list string := ["config-file"; "schema-path"].
Definition text_options : list string :=
  ["custom-scalar-prefix"; "root-dir-import-prefix"; "global-types-module-name";
   "typed-graphql-documentnode-module-name"].
Definition number_options : list string := ["num-threads"].
Definition value_options : list string := path_options ++ text_options ++ number_options.
Definition flag_options : list string :=
  ["use-custom-scalars"; "disable-readonly-types"; "show-deprecation-warnings"; "no-color"].
Definition letters : list (ascii * string) := [("c"%char, "config-file"); ("s"%char, "schema-path")].

(** A word that cannot be taken for an option *)
Definition plain (w : string) : Prop := forall r, w = "-" +++ r -> r = "".

(** The ways to write an item *)
Inductive item_words : item -> list string -> Prop :=
| iw_dir d : plain d -> item_words (Dir d) [d]
| iw_flag n : In n flag_options -> item_words (Flag n) ["--" +++ n]
| iw_equals n v : In n value_options -> item_words (Set_ n v) ["--" +++ n +++ "=" +++ v]
| iw_next n v : In n value_options -> plain v -> item_words (Set_ n v) ["--" +++ n; v]
| iw_letter_equals c n v : In (c, n) letters -> item_words (Set_ n v) ["-" +++ String c ("=" +++ v)]
| iw_letter_attached c n v : In (c, n) letters -> v <> "" -> (forall r, v <> "=" +++ r) ->
    item_words (Set_ n v) ["-" +++ String c v]
| iw_letter_next c n v : In (c, n) letters -> plain v -> item_words (Set_ n v) ["-" +++ String c ""; v].

Inductive written : list item -> list string -> Prop :=
| written_nil : written [] []
| written_cons it ws its rest : item_words it ws -> written its rest -> written (it :: its) (ws ++ rest).

(** A command line: items, and perhaps two dashes, after which any word is a directory *)
Inductive spelled : list item -> list string -> Prop :=
| spelled_plain its ws : written its ws -> spelled its ws
| spelled_dashes its ws : written its ws -> spelled its (ws ++ ["--"])
| spelled_last its ws d : written its ws -> spelled (its ++ [Dir d]) (ws ++ ["--"; d]).

(** Decimal numerals, with an optional plus sign, below 2^64 *)
Definition digit_value (c : ascii) (d : nat) : Prop := d < 10 /\ c = ascii_of_nat (48 + d).
Inductive decimal : string -> nat -> Prop :=
| dec_one c d : digit_value c d -> decimal (String c "") d
| dec_more s n c d : decimal s n -> digit_value c d -> decimal (s +++ String c "") (10 * n + d).
Definition numeral (v : string) (n : nat) : Prop :=
  (exists s, (v = s \/ v = "+" +++ s) /\ decimal s n) /\ (N.of_nat n < 2 ^ 64)%N.

(** Items that make sense by themselves *)
Definition item_ok (it : item) : Prop :=
  match it with
  | Dir d => d <> ""
  | Set_ n v => In n value_options /\ (In n path_options -> v <> "") /\ (In n number_options -> exists k, numeral v k)
  | Flag n => In n flag_options
  end.
Definition subject (it : item) : option string :=
  match it with Dir _ => None | Set_ n _ | Flag n => Some n end.
(** Nothing is said twice *)
Definition consistent (its : list item) : Prop := Forall item_ok its /\ NoDup (List.map subject its).
(** A prefix for custom scalars comes with their use *)
Definition complete (its : list item) : Prop :=
  forall p, In (Set_ "custom-scalar-prefix" p) its -> In (Flag "use-custom-scalars") its.

(** What the settings are *)
Definition sets (its : list item) (n : string) (o : option string) : Prop := forall v, o = Some v <-> In (Set_ n v) its.
Definition flags (its : list item) (n : string) (b : bool) : Prop := b = true <-> In (Flag n) its.
Record says (its : list item) (a : cli_args) (no_color : bool) : Prop := {
  says_root : forall d, ca_root_dir a = Some d <-> In (Dir d) its;
  says_config : sets its "config-file" (ca_config_file a);
  says_schema : sets its "schema-path" (ca_schema_path a);
  says_scalars : flags its "use-custom-scalars" (ca_use_custom_scalars a);
  says_prefix : sets its "custom-scalar-prefix" (ca_custom_scalar_prefix a);
  says_import : sets its "root-dir-import-prefix" (ca_root_dir_import_prefix a);
  says_globals : sets its "global-types-module-name" (ca_global_types_module_name a);
  says_nodes : sets its "typed-graphql-documentnode-module-name" (ca_docnode_module_name a);
  says_readonly : flags its "disable-readonly-types" (ca_disable_readonly_types a);
  says_deprecations : flags its "show-deprecation-warnings" (ca_show_deprecation_warnings a);
  says_threads : forall n, ca_num_threads a = Some n <-> exists v, In (Set_ "num-threads" v) its /\ numeral v n;
  says_color : flags its "no-color" no_color }.

(** Words that ask for help or for the version, whatever else is attached to the letter *)
Definition asks_help (w : string) : Prop := w = "--help" \/ exists r, w = "-h" +++ r.
Definition asks_version (w : string) : Prop := w = "--version" \/ exists r, w = "-V" +++ r.
