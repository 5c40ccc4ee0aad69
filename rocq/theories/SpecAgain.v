(** Specification side for a run after another: the listings and contents it finds. *)
From Verif Require Export SpecFs SpecPath.
From Coq Require Import Permutation.

(** A regular file that is not called like a source *)
Definition new_entry (x : dirent) : Prop := de_kind x = Ok EkFile /\ entry_name (de_name x) /\ ~ source_name (de_name x).
(** A later listing of the same directories: the same entries, in any order, and such files *)
Definition relisted (ls ls' : listing) : Prop := forall d,
  match ls d, ls' d with
  | Ok es, Ok es' => exists new, Permutation es' (es ++ List.map Ok new) /\ Forall new_entry new
  | Err m, Err m' => m = m'
  | _, _ => False
  end.
(** The sources and what they import have the same contents *)
Definition same_reads (e : env) (ls : listing) (c : cconfig) (root : string) (f g : fs) : Prop :=
  forall path l, is_source ls root path -> reads e f c path l -> g l = f l.
(** Of the locations that either run changes both make the same *)
Definition same_changes (f g f' g' : fs) : Prop := forall l, (f' l = f l /\ g' l = g l) \/ f' l = g' l.

(** ** Messages *)
(** Why an entry of the directory cannot be read *)
Definition entry_fails (ls : listing) (d why : string) : Prop := exists es, ls d = Ok es /\
  (In (Err why) es \/ exists n, In (Ok {| de_name := n; de_kind := Err why |}) es).
(** The message of a directory that could not be read *)
Definition directory_message (d why : string) : message :=
  {| ms_level := CompileError; ms_source := None; ms_text := "could not read `" +++ d +++ "`: " +++ why |}.
(** The same message, or messages of one directory with several entries that cannot be read: which is told depends on their order *)
Definition retold (ls : listing) (m m' : message) : Prop := m' = m \/
  exists d why why', entry_fails ls d why /\ entry_fails ls d why' /\ m = directory_message d why /\ m' = directory_message d why'.
