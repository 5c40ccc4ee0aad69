(** Specification side: what it takes for a result type to allow nothing but what a server can answer.  In terms of
    GraphQL's introspection and field collection only. *)
From Verif Require Export SpecResp SpecReg SpecInput.

(** JSON values as servers send them: no object has a key twice *)
Inductive tidy : value -> Prop :=
| tidy_null : tidy VNull
| tidy_bool b : tidy (VBool b)
| tidy_num r : tidy (VNum r)
| tidy_str x : tidy (VStr x)
| tidy_list l : Forall tidy l -> tidy (VList l)
| tidy_obj kvs : NoDup (List.map fst kvs) -> Forall (fun kv => tidy (snd kv)) kvs -> tidy (VObj kvs).

(** Object types have the fields of their interfaces with the same types, not with more special ones *)
Definition implements_exactly (js : jschema) (s : schema) : Prop :=
  forall P T n kind g, declared js P n kind g -> possible s P T -> declared js T n kind g.

(** No object of the response is asked for its type under two keys *)
Inductive tagged_once (s : schema) (frags : amap string fragdef) : string -> selset -> Prop :=
| tagged_intro P (M : selset) :
    (forall T k k' P1 P2 ss ss', possible s P T -> occ s frags T P M k P1 "__typename" ss -> occ s frags T P M k' P2 "__typename" ss' -> k = k') ->
    (forall T k f ss, possible s P T -> focc s frags T P M k f ss -> composite s (ft_name (sf_type f)) ->
       tagged_once s frags (ft_name (sf_type f)) (merged (focc s frags T P M) k (ft_name (sf_type f)))) ->
    tagged_once s frags P M.

(** The names from elsewhere mean nothing more than they should *)
Record base_tight (c : cconfig) (js : jschema) (custom : string -> value -> Prop) (base : string -> value -> Prop) : Prop := {
  bt_boolean : forall v, base "boolean" v -> exists b, v = VBool b;
  bt_string : forall v, base "string" v -> exists x, v = VStr x;
  bt_number : forall v, base "number" v -> exists r, v = VNum r;
  bt_enum : forall b j v, last_named jt_name b js j -> jt_kind j = "ENUM" -> base b v ->
    exists vs e, jt_enum_values j = Some vs /\ In e vs /\ v = VStr e;
  bt_custom : forall n x v j, last_named jt_name n js j -> jt_kind j = "SCALAR" -> scalar_is n (ScCustom n) ->
    scalar_written c (ScCustom n) x -> base x v -> custom n v /\ v <> VNull
}.
(** So do the surroundings of a module *)
Record surroundings_tight (c : cconfig) (js : jschema) (custom amb : string -> value -> Prop) : Prop := {
  st_boolean : forall v, amb "boolean" v -> exists b, v = VBool b;
  st_string : forall v, amb "string" v -> exists x, v = VStr x;
  st_number : forall v, amb "number" v -> exists r, v = VNum r;
  st_custom : forall n x v, scalar_named js n -> custom_written c n x -> amb x v -> custom n v /\ v <> VNull }.
