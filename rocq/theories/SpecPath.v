(** Specification side for file names: names a directory entry can have, the source files among them. *)
From Verif Require Export Base.

Fixpoint has_char (c : ascii) (s : string) : Prop :=
  match s with EmptyString => False | String a s' => a = c \/ has_char c s' end.

(** A name [fs::read_dir] can return *)
Definition entry_name (n : string) : Prop :=
  n <> "" /\ n <> "." /\ n <> ".." /\ ~ has_char "/"%char n.

(** STEM.graphql with a non-empty stem *)
Definition source_name (n : string) : Prop := exists stem, stem <> "" /\ n = stem +++ ".graphql".

(** A path of a directory as it is written: no separator at its end and no "." as its last part unless alone *)
Definition tidy_dir (d : string) : Prop :=
  exists a m, d = a +++ m /\ m <> "" /\ ~ has_char "/"%char m /\
    (a = "" \/ (m <> "." /\ exists a', a = a' +++ "/")).
(** [t] is the path [q], not absolute, as meant in the file [p]: relative to the directory of that file *)
Inductive beside (q : string) : string -> string -> Prop :=
| beside_here n : entry_name n -> beside q n q
| beside_root n : entry_name n -> beside q ("/" +++ n) ("/" +++ q)
| beside_in d n : tidy_dir d -> entry_name n -> beside q (d +++ "/" +++ n) (d +++ "/" +++ q).
(** [t] is the path [q], not absolute, under the directory [d] *)
Inductive within_dir (q : string) : string -> string -> Prop :=
| within_here : within_dir q "" q
| within_slash d : within_dir q (d +++ "/") ((d +++ "/") +++ q)
| within_in d : d <> "" -> (forall a, d <> a +++ "/") -> within_dir q d (d +++ "/" +++ q).
(** Paths that differ in repeated separators, separators at the end and parts "." after the first only *)
Inductive same_path : string -> string -> Prop :=
| same_refl a : same_path a a
| same_sym a b : same_path a b -> same_path b a
| same_trans a b c : same_path a b -> same_path b c -> same_path a c
| same_slashes a b : same_path (a +++ "//" +++ b) (a +++ "/" +++ b)
| same_dot a b : same_path (a +++ "/./" +++ b) (a +++ "/" +++ b)
| same_end_slash a : a <> "" -> same_path (a +++ "/") a
| same_end_dot a : same_path (a +++ "/.") (a +++ "/").
