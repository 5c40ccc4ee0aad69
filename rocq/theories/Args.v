(** Model of the command line: cli.rs:290-331 (the derived parser) and cli.rs:411 [CliArgs::parse], with
    as much of the crates clap 4.4.6, clap_derive 4.4.2 and clap_lex 0.5.1 as this parser uses (not part of
    /repo; their published source is followed: clap_builder's parser.rs, validator.rs, value_parser.rs).
    Not modelled: texts of help and of usage errors; arguments that are not UTF-8 (those are paths, or errors). *)
From Verif Require Export Main.
From Coq Require Import NArith.

(** cli.rs:295-331: one constructor per field, and the two arguments that clap adds *)
Inductive arg_id : Type :=
| ARoot | AConfig | ASchema | AScalars | APrefix | AImport | AGlobals | ANodes | AReadonly | ADeprecations
| AThreads | ANoColor | AHelp | AVersion.
Definition all_args : list arg_id :=
  [ARoot; AConfig; ASchema; AScalars; APrefix; AImport; AGlobals; ANodes; AReadonly; ADeprecations;
   AThreads; ANoColor; AHelp; AVersion].
Definition arg_index (a : arg_id) : nat :=
  match a with
  | ARoot => 0 | AConfig => 1 | ASchema => 2 | AScalars => 3 | APrefix => 4 | AImport => 5 | AGlobals => 6
  | ANodes => 7 | AReadonly => 8 | ADeprecations => 9 | AThreads => 10 | ANoColor => 11 | AHelp => 12
  | AVersion => 13
  end.
#[global] Instance EqB_arg : EqB arg_id := fun a b => Nat.eqb (arg_index a) (arg_index b).

(** The name of the field; clap_derive turns it into kebab case *)
Definition arg_field (a : arg_id) : string :=
  match a with
  | ARoot => "root_dir" | AConfig => "config_file" | ASchema => "schema_path"
  | AScalars => "use_custom_scalars" | APrefix => "custom_scalar_prefix" | AImport => "root_dir_import_prefix"
  | AGlobals => "global_types_module_name" | ANodes => "typed_graphql_documentnode_module_name"
  | AReadonly => "disable_readonly_types" | ADeprecations => "show_deprecation_warnings"
  | AThreads => "num_threads" | ANoColor => "no_color" | AHelp => "help" | AVersion => "version"
  end.
Definition kebab (s : string) : string := replace "_" "-" s.
(** [#[arg(long)]]: every field but root_dir *)
Definition arg_long (a : arg_id) : option string :=
  match a with ARoot => None | _ => Some (kebab (arg_field a)) end.
(** [#[arg(short)]]: the first letter of the field *)
Definition arg_short (a : arg_id) : option ascii :=
  match a with
  | AConfig => Some "c"%char | ASchema => Some "s"%char | AHelp => Some "h"%char | AVersion => Some "V"%char
  | _ => None
  end.

(** What the type of the field makes of it: Option<PathBuf>, Option<String>, Option<usize>, bool *)
Inductive arg_kind : Type := KPath | KText | KNumber | KFlag | KHelp | KVersion.
Definition arg_kind_of (a : arg_id) : arg_kind :=
  match a with
  | ARoot | AConfig | ASchema => KPath
  | APrefix | AImport | AGlobals | ANodes => KText
  | AThreads => KNumber
  | AScalars | AReadonly | ADeprecations | ANoColor => KFlag
  | AHelp => KHelp
  | AVersion => KVersion
  end.
Definition takes_value (a : arg_id) : bool :=
  match arg_kind_of a with KPath | KText | KNumber => true | _ => false end.

(** MKeyMap::get *)
Definition by_long (name : string) : option arg_id :=
  find (fun a => match arg_long a with Some n => String.eqb n name | None => false end) all_args.
Definition by_short (c : ascii) : option arg_id :=
  find (fun a => match arg_short a with Some d => Ascii.eqb d c | None => false end) all_args.

(** core: [usize::from_str]; 64 bits *)
Definition digit (c : ascii) : option N :=
  let n := N_of_ascii c in
  if N.leb 48 n && N.leb n 57 then Some (n - 48)%N else None.
Fixpoint read_digits (acc : N) (s : string) : option N :=
  match s with
  | EmptyString => Some acc
  | String c s' => match digit c with
                   | None => None
                   | Some d => let acc' := (acc * 10 + d)%N in
                               if N.ltb acc' 18446744073709551616 then read_digits acc' s' else None
                   end
  end.
Definition read_usize (s : string) : option nat :=
  let ds := match strip_prefix "+" s with Some r => r | None => s end in
  match ds with EmptyString => None | _ => option_map N.to_nat (read_digits 0 ds) end.

(** value_parser.rs: PathBufValueParser, StringValueParser, usize through FromStr *)
Definition value_ok (a : arg_id) (v : string) : bool :=
  match arg_kind_of a with
  | KPath => negb (String.eqb v "")
  | KNumber => match read_usize v with Some _ => true | None => false end
  | _ => true
  end.

(** ArgMatcher: the arguments found, and the one whose values are still being collected *)
Record matcher := { mt_found : amap arg_id string; mt_pending : option (arg_id * list string) }.

(** Parser::react for the actions Set and SetTrue: the number of values is checked, a second
    occurrence is refused, the value is parsed; [None] = some error *)
Definition store (m : amap arg_id string) (a : arg_id) (vals : list string) : option (amap arg_id string) :=
  match vals, takes_value a with
  | [v], true => if value_ok a v then match aget a m with None => Some (aset a v m) | Some _ => None end else None
  | [], false => match aget a m with None => Some (aset a "true" m) | Some _ => None end
  | _, _ => None
  end.

(** Parser::resolve_pending *)
Definition resolve_pending (mt : matcher) : option (amap arg_id string) :=
  match mt_pending mt with
  | None => Some (mt_found mt)
  | Some (a, vals) => store (mt_found mt) a vals
  end.

Inductive parsed : Type := PFound (m : amap arg_id string) | PHelp | PVersion | PError.
(** The same, to go on with *)
Inductive progress : Type := Go (mt : matcher) | Stop (p : parsed).

(** Parser::react after resolving what was pending: HelpShort, HelpLong and Version end the parsing *)
Definition react (mt : matcher) (a : arg_id) (vals : list string) : progress :=
  match resolve_pending mt with
  | None => Stop PError
  | Some m =>
      match arg_kind_of a with
      | KHelp => Stop PHelp
      | KVersion => Stop PVersion
      | _ => match store m a vals with
             | None => Stop PError
             | Some m' => Go {| mt_found := m'; mt_pending := None |}
             end
      end
  end.
(** Parser::parse_opt_value without an attached value; values pushed to the positional argument *)
Definition await (mt : matcher) (a : arg_id) (vals : list string) : progress :=
  match resolve_pending mt with
  | None => Stop PError
  | Some m => Go {| mt_found := m; mt_pending := Some (a, vals) |}
  end.
Definition parse_opt (mt : matcher) (a : arg_id) (attached : option string) : progress :=
  match attached with Some v => react mt a [v] | None => await mt a [] end.

(** clap_lex: [split_once('=')] *)
Definition split_eq (s : string) : string * option string :=
  match find_char "="%char s with
  | Some i => (take i s, Some (drop (S i) s))
  | None => (s, None)
  end.

(** Parser::parse_long_arg, on the word without its dashes *)
Definition parse_long (mt : matcher) (w : string) : progress :=
  let (name, attached) := split_eq w in
  match by_long name with
  | None => Stop PError
  | Some a =>
      if takes_value a then parse_opt mt a attached
      else match attached with Some _ => Stop PError | None => react mt a [] end
  end.

(** Parser::parse_short_arg, on the word without its dash.  There is no short flag after which the loop
    over the letters would go on. *)
Definition parse_short (mt : matcher) (w : string) : progress :=
  match w with
  | EmptyString => Stop PError
  | String c rest =>
      match by_short c with
      | None => Stop PError
      | Some a =>
          if takes_value a
          then parse_opt mt a (match rest with
                               | EmptyString => None
                               | _ => match strip_prefix "=" rest with Some v => Some v | None => Some rest end
                               end)
          else react mt a []
      end
  end.

(** Parser::get_matches_with: a word that is not an option is the value of the option before it, if that
    has none yet, or else the directory, of which there is one at most *)
Definition parse_plain (trailing : bool) (mt : matcher) (w : string) : progress :=
  match mt_pending mt with
  | Some (a, []) => if trailing then Stop PError
                    else Go {| mt_found := mt_found mt; mt_pending := Some (a, [w]) |}
  | _ => match resolve_pending mt with
         | Some m => match aget ARoot m with
                     | None => Go {| mt_found := m; mt_pending := Some (ARoot, [w]) |}
                     | Some _ => Stop PError
                     end
         | None => Stop PError
         end
  end.
Fixpoint parse_words (trailing : bool) (mt : matcher) (argv : list string) : parsed :=
  match argv with
  | [] => match resolve_pending mt with Some m => PFound m | None => PError end
  | w :: argv' =>
      if negb trailing && String.eqb w "--" then parse_words true mt argv'
      else
        match (if trailing then parse_plain true mt w
               else match strip_prefix "--" w with
                    | Some r => parse_long mt r
                    | None =>
                        match strip_prefix "-" w with
                        | Some EmptyString | None => parse_plain false mt w
                        | Some r => parse_short mt r
                        end
                    end) with
        | Go mt' => parse_words trailing mt' argv'
        | Stop p => p
        end
  end.

(** What a command line asks for; the flag is --no-color *)
Inductive usage : Type := URun (a : cli_args) (no_color : bool) | UHelp | UVersion | UError.

(** FromArgMatches for CliArgs *)
Definition flag (m : amap arg_id string) (a : arg_id) : bool :=
  match aget a m with Some _ => true | None => false end.
Definition args_from (m : amap arg_id string) : cli_args :=
  {| ca_root_dir := aget ARoot m; ca_config_file := aget AConfig m; ca_schema_path := aget ASchema m;
     ca_use_custom_scalars := flag m AScalars; ca_custom_scalar_prefix := aget APrefix m;
     ca_root_dir_import_prefix := aget AImport m; ca_global_types_module_name := aget AGlobals m;
     ca_docnode_module_name := aget ANodes m; ca_disable_readonly_types := flag m AReadonly;
     ca_show_deprecation_warnings := flag m ADeprecations;
     ca_num_threads := match aget AThreads m with Some v => read_usize v | None => None end |}.

(** cli.rs:411 [CliArgs::parse], with the Validator: [requires] of cli.rs:308 *)
Definition parse_args (argv : list string) : usage :=
  match parse_words false {| mt_found := []; mt_pending := None |} argv with
  | PFound m => if cli_args_accepted (args_from m) then URun (args_from m) (flag m ANoColor) else UError
  | PHelp => UHelp
  | PVersion => UVersion
  | PError => UError
  end.

(** The process from its command line on.  Help and version are printed ([help], [version] stand for the
    texts) and end it with code 0, a wrong command line ends it with code 2 and a text on standard error. *)
Definition qlc_command (help version : string) (fuel : nat) (wo : world) (argv : list string) (sched : list nat)
  : process_end :=
  match parse_args argv with
  | URun a _ => qlc fuel wo a sched
  | UHelp => Exited 0 help (wo_fs wo)
  | UVersion => Exited 0 version (wo_fs wo)
  | UError => Exited 2 "" (wo_fs wo)
  end.
