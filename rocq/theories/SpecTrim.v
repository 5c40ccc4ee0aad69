(** Specification side: import lines that are not needed are left out. *)
From Verif Require Export SpecMove.

(** The fragments that the selections [l] of a file need: they spread them, or a fragment they need does *)
Inductive needs (e : env) (f : fs) (c : cconfig) (path contents : string) (l : list selection) : string -> Prop :=
| needs_own n : spreads l n -> needs e f c path contents l n
| needs_through k fd n : needs e f c path contents l k -> brought e f c path contents k fd -> spreads (fr_sels fd) n -> needs e f c path contents l n.

(** The same document with some of the import lines (of a file that may be in another place, as in [SpecMove]) *)
Definition trimmed_file (e e' : env) (c c' : cconfig) (m : string -> string -> Prop) (a x b y : string) : Prop :=
  restated_text e e' x y /\ (unclosed_import y -> unclosed_import x) /\ leads_along c' c (fun t' t => m t t') b y a x.
Definition trimmed_files (e e' : env) (c c' : cconfig) (m : string -> string -> Prop) (f f' : fs) : Prop :=
  forall a b, m a b ->
    match f (env_locate e a), f' (env_locate e' b) with Ok x, Ok y => trimmed_file e e' c c' m a x b y | Err _, Err _ => True | _, _ => False end.

(** What the document at [a] needs of what was imported is still imported *)
Definition needs_kept (e e' : env) (c c' : cconfig) (f f' : fs) (a b : string) : Prop :=
  forall x y d P l n fd, f (env_locate e a) = Ok x -> f' (env_locate e' b) = Ok y -> env_parse e x = Ok [d] -> doc_root d = Some (P, l) ->
    needs e f c a x l n -> brought e f c a x n fd -> exists fd', brought e' f' c' b y n fd'.

(** A project with fewer import lines *)
Record trimmed_project (e e' : env) (ls ls' : listing) (c c' : cconfig) (root root' : string) (m : string -> string -> Prop) (f f' : fs) : Prop := {
  tp_files : trimmed_files e e' c c' m f f';
  tp_needs : forall path path', is_source ls root path -> is_source ls' root' path' -> m path path' -> needs_kept e e' c c' f f' path path';
  tp_to : forall path, is_source ls root path -> exists path', is_source ls' root' path' /\ m path path';
  tp_from : forall path', is_source ls' root' path' -> exists path, is_source ls root path /\ m path path';
  tp_accessible : accessible e ls root -> accessible e' ls' root' }.
