(** Specification side: responses when scalars have the values that the surroundings give them, null included where a scalar is
    written as a type that has null in it (any): such a scalar may then be null at places where the schema says non-null. *)
From Verif Require Export SpecExact.

Section Wide.
  Variable js : jschema.
  Variable s : schema.
  Variable frags : amap string fragdef.
  Variable active : list directive -> Prop.
  Variable scalar_out : scalar -> value -> Prop.
  Definition wide_leaf (b : string) (v : value) : Prop :=
    exists j, last_named jt_name b js j /\
      (jt_kind j = "ENUM" /\ (exists vs e, jt_enum_values j = Some vs /\ In e vs /\ v = VStr e) \/
       jt_kind j = "SCALAR" /\ exists sc, scalar_is b sc /\ scalar_out sc v).
  (** As [object_response] *)
  Fixpoint wide_object (n : nat) (T : string) (M : selset) (v : value) : Prop :=
    match n with
    | O => False
    | S n =>
        exists kvs, v = VObj kvs /\
          (forall k, In k (List.map fst kvs) <-> exists fld ss, collects s frags active T M k fld ss) /\
          forall k x, In (k, x) kvs -> exists fld ss, collects s frags active T M k fld ss /\
            (fld = "__typename" /\ x = VStr T \/
             exists kind g, declared js T fld kind g /\
               wide_values (fun y => wide_leaf (gbase g) y \/
                  exists T', possible s (gbase g) T' /\
                    wide_object n T' (fun z => exists fld' ss', collects s frags active T M k fld' ss' /\ In z ss') y) g x)
    end.
  Definition wide_response (P : string) (l : list selection) (v : value) : Prop :=
    exists n T, possible s P T /\ wide_object n T (fun x => In x l) v.
End Wide.

(** The names from elsewhere mean exactly this *)
Record base_means (c : cconfig) (js : jschema) (scalar_out : scalar -> value -> Prop) (base : string -> value -> Prop) : Prop := {
  bm_scalar : forall b j sc x v, last_named jt_name b js j -> jt_kind j = "SCALAR" -> scalar_is b sc -> scalar_written c sc x ->
    (base x v <-> scalar_out sc v);
  bm_enum : forall b j v, last_named jt_name b js j -> jt_kind j = "ENUM" ->
    (base b v <-> exists vs e, jt_enum_values j = Some vs /\ In e vs /\ v = VStr e) }.
