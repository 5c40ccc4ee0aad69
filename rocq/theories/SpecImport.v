(** Specification side for imports: which lines count, where they lead, what is reachable. *)
From Verif Require Export Graphql SpecPath.

Definition quote : ascii := ascii_of_nat 34.
Definition import_mark : string := "#import " +++ String quote "".

(** Lines that may stand before or between import lines *)
Definition blank (l : string) : Prop := trim l = "".
Definition comment (l : string) : Prop := exists r, l = String "#" r.
Definition leading (l : string) : Prop := blank l \/ comment l.

(** #import "q"..., the closing quote being the last one on the line; without a closing quote *)
Definition names_import (l q : string) : Prop :=
  exists rest, l = import_mark +++ q +++ String quote rest /\ ~ has_char quote rest.
Definition unclosed (l : string) : Prop :=
  exists rest, l = import_mark +++ rest /\ ~ has_char quote rest.

(** Line [n] (from 0) of the contents is [l] and every line before it is leading *)
Definition leading_line (contents : string) (n : nat) (l : string) : Prop :=
  nth_error (lines contents) n = Some l /\
  forall k l', k < n -> nth_error (lines contents) k = Some l' -> leading l'.

(** Where the import path [q] written in a file of directory [dir] leads *)
Definition has_prefix (c : cconfig) (q r : string) : Prop :=
  exists p, cc_import_prefix c = Some p /\ q = p +++ r.
Inductive resolves (c : cconfig) (dir q : string) : string -> Prop :=
| resolves_prefix r : has_prefix c q r -> resolves c dir q (path_join (cc_root_dir c) r)
| resolves_relative r : (forall r', ~ has_prefix c q r') -> q = String "." r ->
    resolves c dir q (path_join dir q)
| resolves_root : (forall r', ~ has_prefix c q r') -> (forall r, q <> String "." r) ->
    resolves c dir q (path_join (cc_root_dir c) q).

(** The file with these contents imports [target] in line [n] (from 0), which reads [l] *)
Definition imports_at (c : cconfig) (file contents : string) (n : nat) (l target : string) : Prop :=
  exists q, leading_line contents n l /\ names_import l q /\ resolves c (path_pop file) q target.

(** The file [target], readable with contents [other], is reachable through import lines *)
Inductive reach (e : env) (f : fs) (c : cconfig) (file contents : string) : string -> string -> Prop :=
| reach_one n l target other :
    imports_at c file contents n l target -> f (env_locate e target) = Ok other ->
    reach e f c file contents target other
| reach_more mid mcontents n l target other :
    reach e f c file contents mid mcontents ->
    imports_at c mid mcontents n l target -> f (env_locate e target) = Ok other ->
    reach e f c file contents target other.

(** The file itself or a reachable one *)
Definition importer (e : env) (f : fs) (c : cconfig) (file contents file' contents' : string) : Prop :=
  (file' = file /\ contents' = contents) \/ reach e f c file contents file' contents'.

(** Message for the unreadable target of line [n] of [file] *)
Definition missing_message (file : string) (n : nat) (l target err : string) : message :=
  {| ms_level := CompileError;
     ms_source := Some (file, Some {| lo_number := string_of_nat (n + 1); lo_line := l; lo_help := None;
                                      lo_column := Some (String.length import_mark) |});
     ms_text := "could not read `" +++ target +++ "`: " +++ err |}.
(** [m] reports an unreadable import of the file or of a reachable one *)
Definition missing (e : env) (f : fs) (c : cconfig) (file contents : string) (m : message) : Prop :=
  exists file' contents' n l target err,
    importer e f c file contents file' contents' /\ imports_at c file' contents' n l target /\
    f (env_locate e target) = Err err /\ m = missing_message file' n l target err.

(** One import step between readable paths *)
Definition import_step (e : env) (f : fs) (c : cconfig) (b a : string) : Prop :=
  exists contents n l other, f (env_locate e a) = Ok contents /\ imports_at c a contents n l b /\
    f (env_locate e b) = Ok other.
(** No infinite chain of imports starts at the path *)
Definition acyclic (e : env) (f : fs) (c : cconfig) (path : string) : Prop := Acc (import_step e f c) path.

(** An import line before the first other line that lacks its closing quote *)
Definition unclosed_import (contents : string) : Prop := exists n l, leading_line contents n l /\ unclosed l.

(** The contents parse as exactly one fragment / exactly one operation *)
Definition holds_fragment (e : env) (contents : string) (fd : fragdef) : Prop := env_parse e contents = Ok [DFrag fd].
Definition holds_operation (e : env) (contents : string) : Prop := exists op, env_parse e contents = Ok [DOp op].

(** Message for an imported operation, as the code words it: [path] is the file being compiled *)
Definition operation_message (path : string) (n : nat) (l : string) : message :=
  {| ms_level := CompileError;
     ms_source := Some (path, Some {| lo_number := string_of_nat (n + 1); lo_line := l;
        lo_help := Some "This document is not a fragment, and importing it is probably a mistake.";
        lo_column := Some (String.length import_mark) |});
     ms_text := "cannot import non-fragment GraphQL document `" +++ path +++ "`" |}.

(** Spellings of a path that can be read have the same contents *)
Definition paths_agree (e : env) (f : fs) : Prop := forall a b x y,
  same_path a b -> f (env_locate e a) = Ok x -> f (env_locate e b) = Ok y -> x = y.
