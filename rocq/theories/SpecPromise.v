(** Specification side: a schema that promises more about what is answered than another. *)
From Verif Require Export SpecResp SpecMore.

(** [g] is [g0] with some non-null marks added; what is named in them is compared elsewhere *)
Inductive stricter : gtype -> gtype -> Prop :=
| str_named n n0 : stricter (GNamed n) (GNamed n0)
| str_list a b : stricter a b -> stricter (GList a) (GList b)
| str_nonnull a b : stricter a b -> stricter (GNonNull a) (GNonNull b)
| str_null a b : stricter a b -> stricter (GNonNull a) b.

(** A document against one schema ([js0], [s0], fragments [fr0]) and a document against another: whatever objects the second
    is answered with could be had by the first, and whatever the first selects of such an object, the second selects under
    the same key, of a type that is at least as strict.  Leaves are of the same name *)
Inductive answers_more (js0 : jschema) (s0 : schema) (fr0 : amap string fragdef) (js : jschema) (s : schema) (fr : amap string fragdef)
  : string -> selset -> string -> selset -> Prop :=
| more_answered P0 M0 P M :
    (forall T, possible s P T -> possible s0 P0 T) ->
    (forall T k Q ss, possible s P T -> occ s0 fr0 T P0 M0 k Q "__typename" ss ->
       exists Q' ss', occ s fr T P M k Q' "__typename" ss' /\ composite s Q') ->
    (forall T k Q n ss kind g, possible s P T -> occ s0 fr0 T P0 M0 k Q n ss -> declared js0 Q n kind g ->
       exists Q' n' ss' kind' g', occ s fr T P M k Q' n' ss' /\ declared js Q' n' kind' g' /\ stricter g' g /\
         ((kind = "SCALAR" \/ kind = "ENUM") /\ kind' = kind /\ gbase g' = gbase g \/
          composite s0 (gbase g) /\ composite s (gbase g') /\
          answers_more js0 s0 fr0 js s fr (gbase g) (merged (focc s0 fr0 T P0 M0) k (gbase g)) (gbase g') (merged (focc s fr T P M) k (gbase g')))) ->
    answers_more js0 s0 fr0 js s fr P0 M0 P M.

(** The leaf types are still there, with no more values *)
Record leaves_kept (js0 js : jschema) : Prop := {
  lk_kinds : forall n j0, last_named jt_name n js0 j0 -> jt_kind j0 = "SCALAR" \/ jt_kind j0 = "ENUM" ->
    exists j, last_named jt_name n js j /\ jt_kind j = jt_kind j0;
  lk_values : forall n j0 j vs0 vs, last_named jt_name n js0 j0 -> jt_kind j0 = "ENUM" -> jt_enum_values j0 = Some vs0 ->
    last_named jt_name n js j -> jt_enum_values j = Some vs -> incl vs vs0
}.

(** Changes to a schema: types and fields are added, types of fields become stricter, values are taken from enums, and
    object types vanish, each from everywhere *)
Record promises_more (js0 : jschema) (s0 : schema) (js : jschema) (s : schema) : Prop := {
  pm_leaves : leaves_kept js0 js;
  pm_fields : forall P n kind g j, declared js0 P n kind g -> last_named jt_name P js j ->
    exists g', declared js P n kind g' /\ stricter g' g /\ gbase g' = gbase g;
  pm_fewer : forall P T j0, last_named jt_name P js0 j0 -> possible s P T -> possible s0 P T;
  pm_vanish : forall P Q T, possible s0 P T -> possible s Q T -> possible s P T
}.
