(** Specification side: operations and fragments under other names, throughout a project. *)
From Verif Require Export SpecRecast SpecProject SpecFs.

(** [G a b]: the fragment called [a] is now called [b]. No two names become one, and none becomes two *)
Definition one_to_one (G : string -> string -> Prop) : Prop :=
  (forall a b b', G a b -> G a b' -> b = b') /\ (forall a a' b, G a b -> G a' b -> a = a').

(** The same selections with spreads of the new names, wherever they stand and whatever their arguments and directives *)
Inductive respread (G : string -> string -> Prop) : selection -> selection -> Prop :=
| rs_field p al n a d sub p' a' d' sub' : respreads G sub sub' -> respread G (SField p al n a d sub) (SField p' al n a' d' sub')
| rs_spread p n d p' n' d' : G n n' -> respread G (SSpread p n d) (SSpread p' n' d')
| rs_inline p c d sub p' d' sub' : respreads G sub sub' -> respread G (SInline p c d sub) (SInline p' c d' sub')
with respreads (G : string -> string -> Prop) : list selection -> list selection -> Prop :=
| rs_nil : respreads G [] []
| rs_cons x x' l l' : respread G x x' -> respreads G l l' -> respreads G (x :: l) (x' :: l').

(** The same document: an operation under any name, a fragment under its new name *)
Inductive retitled (G : string -> string -> Prop) : definition -> definition -> Prop :=
| rt_plain p l p' l' : respreads G l l' -> retitled G (DOp (OpSelectionSet p l)) (DOp (OpSelectionSet p' l'))
| rt_named k p n vs ds l p' n' vs' ds' l' : (n = None <-> n' = None) -> same_vars vs vs' -> respreads G l l' ->
    retitled G (DOp (OpNamed k p n vs ds l)) (DOp (OpNamed k p' n' vs' ds' l'))
| rt_frag d d' : G (fr_name d) (fr_name d') -> fr_cond d' = fr_cond d -> respreads G (fr_sels d) (fr_sels d') -> retitled G (DFrag d) (DFrag d').

(** The texts have the same lines of imports, and hold the same documents but for the names *)
Definition same_import_lines (x y : string) : Prop :=
  forall n r, leading_line x n (import_mark +++ r) <-> leading_line y n (import_mark +++ r).
Definition retitled_text (e : env) (G : string -> string -> Prop) (x y : string) : Prop :=
  same_import_lines x y /\
  match env_parse e x, env_parse e y with Ok ds, Ok ds' => Forall2 (retitled G) ds ds' | Err _, Err _ => True | _, _ => False end.

(** All sources, and what they import, have become such texts *)
Definition retitled_files (e : env) (ls : listing) (c : cconfig) (root : string) (G : string -> string -> Prop) (f f' : fs) : Prop :=
  forall path l, is_source ls root path -> reads e f c path l ->
    match f l, f' l with Ok x, Ok y => retitled_text e G x y | Err _, Err _ => True | _, _ => False end.
