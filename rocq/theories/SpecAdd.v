(** Specification side: source files are added. *)
From Verif Require Export SpecPrune SpecProject.

(** A project with more sources: the former ones, perhaps in other places, and others that are valid on their own *)
Record enlarged_project (e e' : env) (ls ls' : listing) (c c' : cconfig) (s : schema) (root root' : string) (m : string -> string -> Prop) (f f' : fs) : Prop := {
  ep_files : moved_files e e' c c' m f f';
  ep_to : forall path, is_source ls root path -> exists path', is_source ls' root' path' /\ m path path';
  ep_more : forall path', is_source ls' root' path' -> (exists path, is_source ls root path /\ m path path') \/ valid_source e' f' c' s path';
  ep_accessible : accessible e' ls' root' }.
