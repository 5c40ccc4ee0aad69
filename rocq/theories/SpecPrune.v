(** Specification side: source files are deleted. *)
From Verif Require Export SpecTrim.

(** A project with fewer sources, and fewer import lines in those that stay: what they lead to stays *)
Record pruned_project (e e' : env) (ls ls' : listing) (c c' : cconfig) (root root' : string) (m : string -> string -> Prop) (f f' : fs) : Prop := {
  pp_files : trimmed_files e e' c c' m f f';
  pp_needs : forall path path', is_source ls root path -> is_source ls' root' path' -> m path path' -> needs_kept e e' c c' f f' path path';
  pp_from : forall path', is_source ls' root' path' -> exists path, is_source ls root path /\ m path path';
  pp_accessible : accessible e ls root -> accessible e' ls' root' }.

(** A list with some entries left out *)
Inductive part_of {A} : list A -> list A -> Prop :=
| po_nil : part_of [] []
| po_skip x l l' : part_of l' l -> part_of l' (x :: l)
| po_take x l l' : part_of l' l -> part_of (x :: l') (x :: l).
