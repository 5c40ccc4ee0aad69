(** What is true of the intermediate representation of every accepted document, whether or not its
    imported fragments are valid: canonical order, one entry per possible type, and every property
    made from a field of the schema with the representation its type calls for. *)
From Verif Require Export SpecIr.

Inductive ty_shape (s : schema) : sfield -> irtype -> Prop :=
| tys_typename f : ft_def (sf_type f) = FDTypeName -> ty_shape s f ITypeName
| tys_scalar f sc : ft_def (sf_type f) = FDScalar sc -> ty_shape s f (IScalar sc)
| tys_enum f : ft_def (sf_type f) = FDEnum -> ty_shape s f (IEnum (ft_name (sf_type f)))
| tys_complex f cs : fdef_is_complex (ft_def (sf_type f)) = true -> composite s (ft_name (sf_type f)) ->
    coll_shape s (ft_name (sf_type f)) cs -> ty_shape s f (IComplex cs)
with coll_shape (s : schema) : string -> list ircomplex -> Prop :=
| colls P cs :
    sorted_by irc_name cs -> NoDup (List.map irc_name cs) ->
    (forall T, In T (List.map irc_name cs) <-> possible s P T) ->
    (forall T fs, In (IRComplex T fs) cs -> fields_shape s fs) ->
    coll_shape s P cs
with fields_shape (s : schema) : list irfield -> Prop :=
| fieldss es :
    sorted_by (fun e => fst (fst e)) es ->
    NoDup (List.map (fun e : string * sfield * irtype => (fst (fst e), ft_name (sf_type (snd (fst e))))) es) ->
    (forall k f t, In (k, f, t) es -> exists c n, field_of s c n f) ->
    (forall k f t, In (k, f, t) es -> ty_shape s f t) ->
    fields_shape s (List.map mk_irfield es).
