(** Specification side: documents whose selections mean the same for all the types that a generated
    declaration may stand for.  In terms of GraphQL's field collection only. *)
From Verif Require Export SpecSel.

Section Reg.
  Variable s : schema.
  Variable frags : amap string fragdef.
  Notation focc := (focc s frags).

  (** [k] is a response key of objects of type [T] *)
  Definition key (P : string) (M : selset) (T k : string) : Prop := exists f ss, focc T P M k f ss.

  (** Two selections at static type [P] collect, for every object type and at every depth, the same
      keys with fields related by [R] *)
  Inductive alike (R : sfield -> sfield -> Prop) : string -> selset -> selset -> Prop :=
  | alike_intro P (M M' : selset) :
      (forall T k f ss, possible s P T -> focc T P M k f ss -> exists f' ss', focc T P M' k f' ss' /\ R f f') ->
      (forall T k f' ss', possible s P T -> focc T P M' k f' ss' -> exists f ss, focc T P M k f ss /\ R f f') ->
      (forall T k f ss, possible s P T -> focc T P M k f ss -> composite s (ft_name (sf_type f)) ->
         alike R (ft_name (sf_type f)) (merged (focc T P M) k (ft_name (sf_type f)))
               (merged (focc T P M') k (ft_name (sf_type f)))) ->
      alike R P M M'.

  Definition same_type (f f' : sfield) : Prop := sf_type f = sf_type f'.

  (** All response keys of [T] are response keys of every possible type *)
  Definition shares (P : string) (M : selset) (T : string) : Prop :=
    possible s P T /\ forall k, key P M T k -> forall T', possible s P T' -> key P M T' k.

  (** (1) no key of an object type stands for fields of different types; (2) object types whose keys
      are common to all possible types select the same things under each key; (3) so at every depth *)
  Inductive regular : string -> selset -> Prop :=
  | regular_intro P (M : selset) :
      (forall T k f ss f' ss', possible s P T -> focc T P M k f ss -> focc T P M k f' ss' -> sf_type f = sf_type f') ->
      (forall T T' k f ss f' ss', shares P M T -> shares P M T' -> focc T P M k f ss -> focc T' P M k f' ss' ->
         sf_type f = sf_type f' /\
         (composite s (ft_name (sf_type f)) ->
          alike same_type (ft_name (sf_type f)) (merged (focc T P M) k (ft_name (sf_type f)))
                (merged (focc T' P M) k (ft_name (sf_type f))))) ->
      (forall T k f ss, possible s P T -> focc T P M k f ss -> composite s (ft_name (sf_type f)) ->
         regular (ft_name (sf_type f)) (merged (focc T P M) k (ft_name (sf_type f)))) ->
      regular P M.
End Reg.
