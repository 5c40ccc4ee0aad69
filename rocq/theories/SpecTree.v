(** Specification side for the scan: the tree of directories and source files below a directory. *)
From Verif Require Export SpecPool Main.

(** The entries of a directory, when all of them can be read *)
Fixpoint readable (es : list (res string dirent)) : option (list (string * entry_kind)) :=
  match es with
  | [] => Some []
  | Ok d :: es' =>
      match de_kind d, readable es' with
      | Ok k, Some l => Some ((de_name d, k) :: l)
      | _, _ => None
      end
  | Err _ :: _ => None
  end.

(** What one entry of directory [dir] stands for: a subdirectory, a source file, or nothing *)
Definition entry_work (dir : string) (x : string * entry_kind) : list work :=
  let path := path_join dir (fst x) in
  match snd x with
  | EkDir => [WDir path]
  | EkFile => match path_extension path with
              | Some ext => if String.eqb ext "graphql" then [WFile path] else []
              | None => []
              end
  | EkOther => []
  end.

(** The children of an item.  A directory of which some part cannot be read has none. *)
Definition dir_kids (ls : listing) (x : work) : list work :=
  match x with
  | WFile _ => []
  | WDir dir =>
      match ls dir with
      | Ok es => match readable es with
                 | Some l => flat_map (entry_work dir) l
                 | None => []
                 end
      | Err _ => []
      end
  end.

(** Position [p] below [root] holds [x] *)
Definition in_tree (ls : listing) (root : string) : list nat -> work -> Prop := node (dir_kids ls) (WDir root).

(** No directory below [root], only files *)
Definition flat_tree (ls : listing) (root : string) : Prop :=
  forall x, In x (dir_kids ls (WDir root)) -> dir_kids ls x = [].

(** Each item of the tree is run to its end, whatever the contents of the files *)
Definition tree_completes (run : runner work fs report) (ls : listing) (root : string) : Prop :=
  forall p x f, in_tree ls root p x -> exists f' r, run x f = Done (f', dir_kids ls x, r).

(** [done] lists every position of the tree exactly once *)
Definition every_once (ls : listing) (root : string) (done : list work) : Prop :=
  exists ps, NoDup ps /\ Forall2 (in_tree ls root) ps done /\ forall p x, in_tree ls root p x -> In p ps.
