(** The response keys a selection set selects, at any depth and through spread fragments. *)
From Verif Require Export SpecShape.

Inductive selects (frags : amap string fragdef) : list selection -> string -> Prop :=
| mn_here p al n a d sub sels : In (SField p al n a d sub) sels -> selects frags sels (response_key al n)
| mn_below p al n a d sub sels k : In (SField p al n a d sub) sels -> selects frags sub k -> selects frags sels k
| mn_inline p c d sub sels k : In (SInline p c d sub) sels -> selects frags sub k -> selects frags sels k
| mn_spread p n d f sels k : In (SSpread p n d) sels -> aget n frags = Some f -> selects frags (fr_sels f) k ->
    selects frags sels k.

(** Every property, at any depth, has a name satisfying [K] *)
Inductive ty_keys (K : string -> Prop) : irtype -> Prop :=
| tk_typename : ty_keys K ITypeName
| tk_enum n : ty_keys K (IEnum n)
| tk_scalar sc : ty_keys K (IScalar sc)
| tk_complex cs : (forall x, In x cs -> cplx_keys K x) -> ty_keys K (IComplex cs)
with cplx_keys (K : string -> Prop) : ircomplex -> Prop :=
| ck T fs : (forall k d dp l r t, In (IRField k d dp l r t) fs -> K k) ->
    (forall k d dp l r t, In (IRField k d dp l r t) fs -> ty_keys K t) -> cplx_keys K (IRComplex T fs).
