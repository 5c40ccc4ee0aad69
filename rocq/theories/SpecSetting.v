(** Specification side for two sets of options: where the texts they give may differ. *)
From Verif Require Export Graphql SpecSel.
From Coq Require Import Permutation.

(** [a] and [b] are the same text, but at any number of places one has some [x] and the other some [y] with [V x y] *)
Inductive differs (V : string -> string -> Prop) : string -> string -> Prop :=
| df_end : differs V "" ""
| df_same ch a b : differs V a b -> differs V (String ch a) (String ch b)
| df_place x y a b : V x y -> differs V a b -> differs V (x +++ a) (y +++ b).

(** [n] is the name of a scalar type of the schema, or of the scalar type of a field or of an input field *)
Inductive names_scalar (s : schema) (n : string) : Prop :=
| ns_type t sc : get_type s n = Some t -> st_def t = TScalar sc -> names_scalar s n
| ns_field T k f : field_of s T k f -> ft_def (sf_type f) = FDScalar (ScCustom n) -> names_scalar s n
| ns_input T t nm fs k f : get_type s T = Some t -> st_def t = TInputObject nm fs -> In (k, f) fs ->
    ft_def (sf_type f) = FDScalar (ScCustom n) -> names_scalar s n.

(** How options write a custom scalar *)
Definition scalar_word (b : bottom_config) (n : string) : string :=
  match b with BottomAny => "any" | BottomReal => n | BottomPrefix p => p +++ n end.
(** What options put after the indentation of a property *)
Definition property_word (readonly : bool) : string := if readonly then "  readonly " else "  ".
(** How a module is named in an import *)
Definition from_module (m : string) : string := "from " +++ dq +++ m +++ dq.

(** The places at which options make a difference *)
Inductive option_place (s : schema) (c c' : cconfig) : string -> string -> Prop :=
| op_readonly : option_place s c c' (property_word (cc_readonly c)) (property_word (cc_readonly c'))
| op_scalar n : names_scalar s n -> option_place s c c' (scalar_word (cc_bottom c) n) (scalar_word (cc_bottom c') n)
| op_documents : option_place s c c' (from_module (cc_docnode_module c)) (from_module (cc_docnode_module c'))
| op_globals : option_place s c c' (from_module (cc_globals_module c)) (from_module (cc_globals_module c')).

(** Starting from [f], either neither run has changed the file, or they have written texts that differ at such places only *)
Definition changed_alike (V : string -> string -> Prop) (f f' g' : fs) (l l' : string) : Prop :=
  (f' l = f l /\ g' l' = f l') \/ exists a b, f' l = Ok a /\ g' l' = Ok b /\ differs V a b.

(** The warnings that can be asked for *)
Definition deprecation (m : message) : Prop := ms_level m = CompileWarning /\
  exists field parent, ms_text m = "use of deprecated field `" +++ field +++ "` on type `" +++ parent +++ "`".
(** The same messages, but for these *)
Definition told_alike (c c' : cconfig) (ms ms' : list message) : Prop := exists N D D',
  Permutation ms (N ++ D) /\ Permutation ms' (N ++ D') /\
  Forall (fun m => ~ deprecation m) N /\ Forall deprecation D /\ Forall deprecation D' /\
  (cc_deprecations c = false -> D = []) /\ (cc_deprecations c' = false -> D' = []) /\
  (cc_deprecations c = cc_deprecations c' -> Permutation D D').
