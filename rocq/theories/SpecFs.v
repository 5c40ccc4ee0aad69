(** Specification side for the file system during a run: what compiling a file reads and writes. *)
From Verif Require Export SpecImport SpecTree.

(** Locations read when the file at [path] is compiled: its own, and every import target *)
Inductive reads (e : env) (f : fs) (c : cconfig) (path : string) : string -> Prop :=
| reads_self : reads e f c path (env_locate e path)
| reads_import contents file' contents' n l t : f (env_locate e path) = Ok contents ->
    importer e f c path contents file' contents' -> imports_at c file' contents' n l t ->
    reads e f c path (env_locate e t).

(** Where its output goes *)
Definition out_loc (e : env) (path : string) : string := env_locate e (with_extension path "graphql.d.ts").

Definition is_source (ls : listing) (root path : string) : Prop := exists p, in_tree ls root p (WFile path).

(** No source or import is an output, and different output paths are different files *)
Definition separate (e : env) (ls : listing) (c : cconfig) (root : string) (f : fs) : Prop :=
  (forall x y l, is_source ls root x -> is_source ls root y -> reads e f c x l -> l <> out_loc e y) /\
  (forall x y, is_source ls root x -> is_source ls root y -> out_loc e x = out_loc e y ->
     with_extension x "graphql.d.ts" = with_extension y "graphql.d.ts").

(** [g] is [f] with the outputs of the files [done], each as compiled from [f] *)
Definition outputs_of (fuel : nat) (e : env) (c : cconfig) (s : schema) (f : fs) (done : list string) (g : fs) : Prop :=
  (forall path, In path done -> exists f' r, compile_file fuel e f c s path = Done (f', r) /\
     g (out_loc e path) = f' (out_loc e path)) /\
  (forall l, (forall path, In path done -> l <> out_loc e path) -> g l = f l).
