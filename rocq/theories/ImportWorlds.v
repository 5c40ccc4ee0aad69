(** Small concrete file systems with imports. *)
From Verif Require Export Worlds SpecImport.

(** fragment F on Query { a } *)
Definition tiny_fragment : fragdef :=
  {| fr_pos := p0; fr_name := "F"; fr_cond := "Query"; fr_dirs := []; fr_sels := [SField p0 None "a" [] [] []] |}.
(** query Q { ...F } *)
Definition spread_query : definition := DOp (OpNamed KQuery p0 (Some "Q") [] [] [SSpread p0 "F" []]).

(** Contents parse according to their last letter: Q = [tiny_query], S = [spread_query],
    F = [tiny_fragment] *)
Definition letter_env : env :=
  {| env_parse := fun c => match srev c with
       | String a _ => if Ascii.eqb a "Q" then Ok [tiny_query] else if Ascii.eqb a "S" then Ok [spread_query]
                       else if Ascii.eqb a "F" then Ok [DFrag tiny_fragment] else Err "syntax error"
       | EmptyString => Err "syntax error" end;
     env_locate := fun p => p; env_write := fun _ => WOk; env_similar := fun _ _ => false;
     env_order := fun _ => plain_order |}.
Definition import_line (q : string) : string := import_mark +++ q +++ String quote nl.
Definition files (l : list (string * string)) : fs := fun p =>
  match aget p l with Some x => Ok x | None => Err "not found" end.
Definition tiny_config : cconfig := cconfig_of (merge_config 4 no_args config_default).
Definition tiny_loaded : schema := match load_schema tiny_schema with Ok s => s | Err _ => [] end.

(** ./a.graphql imports ./b.graphql, which imports ./c.graphql *)
Definition chain (a b c : string) : fs := files
  [("./a.graphql", import_line "b.graphql" +++ a); ("./b.graphql", "# see" +++ nl +++ import_line "c.graphql" +++ b); ("./c.graphql", c)].
(** ./a.graphql imports itself *)
Definition looping : fs := files [("./a.graphql", import_line "a.graphql" +++ "Q")].
(** ./a.graphql has an import line without closing quote *)
Definition unquoted : fs := files [("./a.graphql", import_mark +++ "b.graphql" +++ nl +++ "Q")].
