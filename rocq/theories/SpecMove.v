(** Specification side: source files in other places, with import lines that lead to the same files. *)
From Verif Require Export SpecRefactor.

(** The same document: other positions, arguments and directives at most *)
Definition restated (d d' : definition) : Prop := same_head d d' /\ retitled eq d d'.
Definition restated_text (e e' : env) (x y : string) : Prop :=
  match env_parse e x, env_parse e' y with Ok ds, Ok ds' => Forall2 restated ds ds' | Err _, Err _ => True | _, _ => False end.

(** [m a b]: the file that had the path [a] before has the path [b] now; a file may have many paths *)
Definition leads_along (c c' : cconfig) (m : string -> string -> Prop) (a x b y : string) : Prop :=
  forall n l t, imports_at c a x n l t -> exists n' l' t', imports_at c' b y n' l' t' /\ m t t'.
Definition moved_file (e e' : env) (c c' : cconfig) (m : string -> string -> Prop) (a x b y : string) : Prop :=
  restated_text e e' x y /\ (unclosed_import x <-> unclosed_import y) /\
  leads_along c c' m a x b y /\ leads_along c' c (fun t' t => m t t') b y a x.
Definition moved_files (e e' : env) (c c' : cconfig) (m : string -> string -> Prop) (f f' : fs) : Prop :=
  forall a b, m a b ->
    match f (env_locate e a), f' (env_locate e' b) with Ok x, Ok y => moved_file e e' c c' m a x b y | Err _, Err _ => True | _, _ => False end.

(** The same options for what is generated; the root directory and the prefix of import lines may be others *)
Definition same_output_options (c c' : cconfig) : Prop :=
  cc_deprecations c' = cc_deprecations c /\ cc_readonly c' = cc_readonly c /\ cc_bottom c' = cc_bottom c /\
  cc_globals_module c' = cc_globals_module c /\ cc_docnode_module c' = cc_docnode_module c.

(** All directories can be read and all outputs can be written *)
Definition accessible (e : env) (ls : listing) (root : string) : Prop :=
  (forall p d, in_tree ls root p (WDir d) -> exists es l, ls d = Ok es /\ readable es = Some l) /\
  (forall path, is_source ls root path -> env_write e (with_extension path "graphql.d.ts") = WOk).

(** The sources of a project in other places; nothing is said about where the surroundings locate them *)
Record moved_project (e e' : env) (ls ls' : listing) (c c' : cconfig) (root root' : string) (m : string -> string -> Prop) (f f' : fs) : Prop := {
  mp_files : moved_files e e' c c' m f f';
  mp_to : forall path, is_source ls root path -> exists path', is_source ls' root' path' /\ m path path';
  mp_from : forall path', is_source ls' root' path' -> exists path, is_source ls root path /\ m path path';
  mp_accessible : accessible e ls root <-> accessible e' ls' root' }.
