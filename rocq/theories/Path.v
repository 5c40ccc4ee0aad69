(** Model of the std::path::Path operations used by qlc, on Unix (std library behaviour; paths are
    byte strings with separator /). *)
From Verif Require Export Base.

Definition sep : ascii := "/"%char.
Definition dot : ascii := "."%char.

(** Pieces of a string between occurrences of a character *)
Fixpoint split_on (c : ascii) (acc s : string) : list string :=
  match s with
  | EmptyString => [acc]
  | String a s' => if Ascii.eqb a c then acc :: split_on c EmptyString s'
                   else split_on c (acc +++ String a EmptyString) s'
  end.
Definition pieces (s : string) : list string := split_on sep EmptyString s.

(** [Path::has_root] / [Path::is_absolute] on Unix *)
Definition is_absolute (s : string) : bool :=
  match s with String a _ => Ascii.eqb a sep | EmptyString => false end.

(** [Path::components]: root flag and component names; a leading . of a relative path is kept, other
    . and empty pieces are dropped *)
Definition real_piece (s : string) : bool := negb (String.eqb s "" || String.eqb s ".").
Definition components (s : string) : bool * list string :=
  if is_absolute s then (true, filter real_piece (pieces s))
  else match pieces s with
       | [] => (false, [])
       | f :: r => (false, (if String.eqb f "" then [] else [f]) ++ filter real_piece r)
       end.

(** [PathBuf] as a hash-map key: equality is equality of components *)
Record rpath := P { raw : string }.
Fixpoint list_eqb (a b : list string) : bool :=
  match a, b with
  | [], [] => true
  | x :: a', y :: b' => String.eqb x y && list_eqb a' b'
  | _, _ => false
  end.
Definition path_eqb (a b : string) : bool :=
  Bool.eqb (fst (components a)) (fst (components b))
  && list_eqb (snd (components a)) (snd (components b)).
#[global] Instance EqB_rpath : EqB rpath := fun a b => path_eqb (raw a) (raw b).

(** Last byte is a separator *)
Fixpoint ends_with_sep (s : string) : bool :=
  match s with
  | EmptyString => false
  | String a EmptyString => Ascii.eqb a sep
  | String _ s' => ends_with_sep s'
  end.

(** [Path::join] *)
Definition path_join (base p : string) : string :=
  if is_absolute p then p
  else match base with
       | EmptyString => p
       | _ => if ends_with_sep base then base +++ p else base +++ "/" +++ p
       end.

(** Trailing separators and trailing . pieces (not at the very start), which [Components::as_path]
    and [next_back] skip; [s] is the reversed path.  [fuel] = length. *)
Fixpoint trim_right_rev (fuel : nat) (s : string) : string :=
  match fuel with
  | O => s
  | S k =>
      match s with
      | String a (String b r) =>
          if Ascii.eqb a sep then trim_right_rev k (String b r)
          else if Ascii.eqb a dot && Ascii.eqb b sep then trim_right_rev k (String b r)
          else s
      | _ => s
      end
  end.
Definition trim_right (s : string) : string := srev (trim_right_rev (String.length s) (srev s)).

(** Length of the last piece, scanning the reversed path up to a separator *)
Fixpoint last_piece_rev (s : string) : string :=
  match s with
  | EmptyString => EmptyString
  | String a s' => if Ascii.eqb a sep then EmptyString else String a (last_piece_rev s')
  end.
(** The last component as raw text (empty for the empty path and for the root) *)
Definition last_piece (s : string) : string := srev (last_piece_rev (srev (trim_right s))).

(** [PathBuf::pop]: truncate to [Path::parent] if there is one *)
Definition path_pop (s : string) : string :=
  let t := trim_right s in
  let l := last_piece s in
  if String.eqb l "" then s
  else trim_right (take (String.length t - String.length l) t).

(** [Path::parent] *)
Definition path_parent (s : string) : option string :=
  if String.eqb (last_piece s) "" then None else Some (path_pop s).

(** [Path::file_name]: the last component if it is a normal one *)
Definition file_name (s : string) : option string :=
  let l := last_piece s in
  if String.eqb l "" || String.eqb l "." || String.eqb l ".." then None else Some l.

(** std's [rsplit_file_at_dot]: stem and extension *)
Definition split_file_at_dot (f : string) : string * option string :=
  match rfind dot f with
  | None => (f, None)
  | Some 0 => (f, None)
  | Some i => (take i f, Some (drop (S i) f))
  end.

(** [Path::extension] *)
Definition path_extension (s : string) : option string :=
  match file_name s with None => None | Some f => snd (split_file_at_dot f) end.

(** [Path::with_extension] for a non-empty extension *)
Definition with_extension (s ext : string) : string :=
  match file_name s with
  | None => s
  | Some f =>
      let t := trim_right s in
      let stem := fst (split_file_at_dot f) in
      take (String.length t - String.length f + String.length stem) t +++ "." +++ ext
  end.
