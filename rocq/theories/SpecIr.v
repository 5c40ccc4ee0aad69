(** Specification of a compiled selection: which concrete types it lists and which properties each
    of them has, in terms of the collected occurrences of [SpecSel]. *)
From Coq Require Export Sorting.Sorted.
From Verif Require Export SpecSel Ir.

Definition sorted_by {A} (key : A -> string) (l : list A) : Prop :=
  StronglySorted (fun x y => str_leb (key x) (key y) = true) l.

(** Property made from field [f] selected under response key [k] *)
Definition mk_irfield (x : string * sfield * irtype) : irfield :=
  let '(k, f, t) := x in
  IRField k (sf_doc f) (sf_deprecated f) (ft_mod (sf_type f)) (ft_rest (sf_type f)) t.

Inductive ty_ok (s : schema) (frags : amap string fragdef) : sfield -> selset -> irtype -> Prop :=
| tyok_typename f (M : selset) : ft_def (sf_type f) = FDTypeName -> ty_ok s frags f M ITypeName
| tyok_scalar f (M : selset) sc : ft_def (sf_type f) = FDScalar sc -> ty_ok s frags f M (IScalar sc)
| tyok_enum f (M : selset) : ft_def (sf_type f) = FDEnum -> ty_ok s frags f M (IEnum (ft_name (sf_type f)))
| tyok_complex f (M : selset) cs :
    fdef_is_complex (ft_def (sf_type f)) = true -> coll_ok s frags (ft_name (sf_type f)) M cs ->
    ty_ok s frags f M (IComplex cs)
(** [cs] describes the selections [M] at static type [P]: one entry per possible type, sorted *)
with coll_ok (s : schema) (frags : amap string fragdef) : string -> selset -> list ircomplex -> Prop :=
| collok P (M : selset) cs :
    sorted_by irc_name cs -> NoDup (List.map irc_name cs) ->
    (forall T, In T (List.map irc_name cs) <-> possible s P T) ->
    (forall T fs, In (IRComplex T fs) cs -> fields_ok s frags (focc s frags T P M) fs) ->
    coll_ok s frags P M cs
(** [fs] describes the occurrences [O]: one property per response key and field type, sorted *)
with fields_ok (s : schema) (frags : amap string fragdef) : occset -> list irfield -> Prop :=
| fieldsok (O : occset) es :
    sorted_by (fun e => fst (fst e)) es ->
    NoDup (List.map (fun e : string * sfield * irtype => (fst (fst e), ft_name (sf_type (snd (fst e))))) es) ->
    (forall k f t, In (k, f, t) es -> exists ss, O k f ss) ->
    (forall k f t, In (k, f, t) es -> ty_ok s frags f (merged O k (ft_name (sf_type f))) t) ->
    (forall k f ss, O k f ss -> exists f' t, In (k, f', t) es /\ ft_name (sf_type f') = ft_name (sf_type f)) ->
    fields_ok s frags O (List.map mk_irfield es).
