(** Specification side for the name of a document. *)
From Verif Require Export SpecSel.

(** A text with places for a name: fixed pieces, and [None] for the places *)
Definition form : Type := list (option string).
Definition fill (n : string) (t : form) : string :=
  String.concat "" (List.map (fun x => match x with Some a => a | None => n end) t).

(** The document under another name *)
Definition under_name (n : string) (d : definition) : definition :=
  match d with
  | DOp (OpSelectionSet p l) => DOp (OpSelectionSet p l)
  | DOp (OpNamed k p _ vs ds l) => DOp (OpNamed k p (Some n) vs ds l)
  | DFrag f => DFrag {| fr_pos := fr_pos f; fr_name := n; fr_cond := fr_cond f; fr_dirs := fr_dirs f; fr_sels := fr_sels f |}
  end.
