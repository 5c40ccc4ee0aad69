(** Specification side for whole projects: what makes a source valid, with everything it imports. *)
From Verif Require Export SpecEnd SpecSel SpecVar SpecGql SpecGlobal SpecTree.

(** [x] is the type of a variable of the document, and not a scalar *)
Definition variable_type (s : schema) (d : definition) (x : string) : Prop :=
  exists v, In v (doc_vars d) /\ x = gbase (vgtype v) /\ is_builtin x = false /\
    exists t, get_type s x = Some t /\ forall m, st_def t <> TScalar m.

(** The file at [path] holds one document [d], which selects [l] from the type [P]; its imports bring [frags] *)
Record valid_at (e : env) (f : fs) (c : cconfig) (s : schema) (path contents : string) (d : definition)
    (P : string) (l : list selection) (frags : amap string fragdef) : Prop := {
  va_read : f (env_locate e path) = Ok contents;
  va_parse : env_parse e contents = Ok [d];
  (* imports: they end, are closed, lead to readable files, and to no operation *)
  va_acyclic : acyclic e f c path;
  va_quotes : forall F C, importer e f c path contents F C -> ~ unclosed_import C;
  va_found : forall F C n ln t, importer e f c path contents F C -> imports_at c F C n ln t -> exists o, f (env_locate e t) = Ok o;
  va_fragments : forall t o, reach e f c path contents t o -> ~ holds_operation e o;
  va_brought : forall n fd, aget n frags = Some fd <-> brought e f c path contents n fd;
  (* the document: a named query or mutation, or a fragment; of fields and fragments that exist *)
  va_root : doc_root d = Some (P, l);
  va_query : is_subscription d = false;
  va_composite : composite s P;
  va_possible : exists T, possible s P T;
  va_sels : valid_sels s frags P l;
  (* its variables: lists nested once at most, of types that exist, can be inputs and end *)
  va_vars : forall v, In v (doc_vars d) -> good_var s v;
  va_inputs : forall x, variable_type s d x -> global_type s x /\ wellfounded s x }.
Definition valid_source (e : env) (f : fs) (c : cconfig) (s : schema) (path : string) : Prop :=
  exists contents d P l frags, valid_at e f c s path contents d P l frags.

(** Every directory can be read, every source is valid, and every output can be written *)
Record valid_project (e : env) (ls : listing) (f : fs) (c : cconfig) (s : schema) (root : string) : Prop := {
  vp_dirs : forall p d, in_tree ls root p (WDir d) -> exists es l, ls d = Ok es /\ readable es = Some l;
  vp_sources : forall path, is_source ls root path -> valid_source e f c s path;
  vp_outputs : forall path, is_source ls root path -> env_write e (with_extension path "graphql.d.ts") = WOk }.

(** ** What the surroundings provide *)
(** Fragments of the same name that reach a source are the same *)
Definition unique_fragments (e : env) (ls : listing) (f : fs) (c : cconfig) (root : string) : Prop :=
  forall path contents n fd fd', is_source ls root path -> f (env_locate e path) = Ok contents ->
    brought e f c path contents n fd -> brought e f c path contents n fd' -> fd = fd'.
(** Imports lead to sources only *)
Definition imports_inside (e : env) (ls : listing) (f : fs) (c : cconfig) (root : string) : Prop :=
  forall path contents t o, is_source ls root path -> f (env_locate e path) = Ok contents -> reach e f c path contents t o ->
    exists q, is_source ls root q /\ env_locate e q = env_locate e t.
(** Paths relative to the same file lead to the same files *)
Definition relative_paths (e : env) : Prop := forall a b q, env_locate e a = env_locate e b ->
  env_locate e (path_join (path_pop a) q) = env_locate e (path_join (path_pop b) q).
(** The parser reads no type with two marks [!] *)
Definition types_parse (e : env) : Prop := forall contents d v, env_parse e contents = Ok [d] -> In v (doc_vars d) -> valid_gtype (vgtype v) = true.
