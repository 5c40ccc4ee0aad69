(** Specification side: a document that selects all that another selects. *)
From Verif Require Export SpecSel.

(** The selections of one document are still there in another, at any place of the selection sets they were in and with
    any selections added to their own.  Positions, arguments and directives do not matter, nor whether a key is written out *)
Inductive kept : selection -> selection -> Prop :=
| kept_field p p' al al' n a a' d d' l l' : response_key al n = response_key al' n -> all_kept l l' ->
    kept (SField p al n a d l) (SField p' al' n a' d' l')
| kept_inline p p' c d d' l l' : all_kept l l' -> kept (SInline p c d l) (SInline p' c d' l')
| kept_spread p p' name d d' : kept (SSpread p name d) (SSpread p' name d')
with all_kept : list selection -> list selection -> Prop :=
| kept_none l' : all_kept [] l'
| kept_more x x' l l' : In x' l' -> kept x x' -> all_kept l l' -> all_kept (x :: l) l'.
(** The same of fragments *)
Definition frags_kept (fr0 fr : amap string fragdef) : Prop := forall name fd, aget name fr0 = Some fd ->
  exists fd', aget name fr = Some fd' /\ fr_cond fd' = fr_cond fd /\ all_kept (fr_sels fd) (fr_sels fd').

(** Whatever is selected by [M0] with the fragments [fr0], for whatever object, is selected by [M] with [fr] too: what
    objects there can be, a field of the same type under the same key, and all that is selected of it.  How the selections are
    divided into fragments does not matter *)
Inductive selects_more (s : schema) (fr0 fr : amap string fragdef) : string -> selset -> string -> selset -> Prop :=
| more_selected P0 M0 P M :
    (forall T, possible s P T -> possible s P0 T) ->
    (forall T k f ss, possible s P T -> focc s fr0 T P0 M0 k f ss -> exists f' ss', focc s fr T P M k f' ss' /\ sf_type f' = sf_type f) ->
    (forall T k f ss, possible s P T -> focc s fr0 T P0 M0 k f ss -> composite s (ft_name (sf_type f)) ->
       selects_more s fr0 fr (ft_name (sf_type f)) (merged (focc s fr0 T P0 M0) k (ft_name (sf_type f)))
                             (ft_name (sf_type f)) (merged (focc s fr T P M) k (ft_name (sf_type f)))) ->
    selects_more s fr0 fr P0 M0 P M.
