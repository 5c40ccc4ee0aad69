(** Specification side: which fields a GraphQL executor collects for an object type (GraphQL spec
    6.3.2 CollectFields, for selections without @skip/@include), which selections are valid (5.3),
    and when a schema's type references are consistent.  Uses only the data types of the schema and
    the AST, no function of the compiler. *)
From Verif Require Export Schema Ast.

(** The key of a field in the response: its alias, or its name *)
Definition response_key (alias : option string) (name : string) : string :=
  match alias with Some a => a | None => name end.

(** [T] is an object type a value of type [c] can have at run time *)
Definition possible (s : schema) (c T : string) : Prop :=
  exists t, get_type s c = Some t /\
    match st_def t with
    | TObject _ => T = c
    | TInterface _ _ ps | TUnion _ ps _ => In T ps
    | _ => False
    end.

(** Types that take a selection set *)
Definition composite (s : schema) (c : string) : Prop :=
  exists t, get_type s c = Some t /\
    match st_def t with TObject _ | TInterface _ _ _ | TUnion _ _ _ => True | _ => False end.

(** [f] is the field [n] of the composite type [c] *)
Definition field_of (s : schema) (c n : string) (f : sfield) : Prop :=
  exists t, get_type s c = Some t /\
    match st_def t with
    | TObject fs | TInterface _ fs _ | TUnion _ _ fs => aget n fs = Some f
    | _ => False
    end.

(** [occ s frags T P M k P' n sub]: executing the selections [M], written at static type [P], for an
    object of type [T] collects under response key [k] a selection of field [n], written at static
    type [P'], with sub-selections [sub]. *)
Inductive occ (s : schema) (frags : amap string fragdef) (T : string)
  : string -> (selection -> Prop) -> string -> string -> string -> list selection -> Prop :=
| occ_field P (M : selection -> Prop) p al n a d sub :
    M (SField p al n a d sub) -> occ s frags T P M (response_key al n) P n sub
| occ_inline P (M : selection -> Prop) p c d sub k P' n ss :
    M (SInline p (Some c) d sub) -> possible s c T ->
    occ s frags T c (fun x => In x sub) k P' n ss -> occ s frags T P M k P' n ss
| occ_spread P (M : selection -> Prop) p name d fd k P' n ss :
    M (SSpread p name d) -> aget name frags = Some fd -> possible s (fr_cond fd) T ->
    occ s frags T (fr_cond fd) (fun x => In x (fr_sels fd)) k P' n ss -> occ s frags T P M k P' n ss.

(** Sets of selections, and sets of collected occurrences: response key, field, sub-selections *)
Definition selset : Type := selection -> Prop.
Definition occset : Type := string -> sfield -> list selection -> Prop.

(** Collected occurrences with the schema field they refer to *)
Definition focc (s : schema) (frags : amap string fragdef) (T P : string) (M : selset) : occset :=
  fun k f ss => exists P' n, occ s frags T P M k P' n ss /\ field_of s P' n f.

(** Sub-selections merged under one response key and one field type *)
Definition merged (O : occset) (k typ : string) : selset := fun x =>
  exists f ss, O k f ss /\ ft_name (sf_type f) = typ /\ In x ss.

(** Valid selections at static type [P].  Being inductive, the predicate also excludes fragments
    that spread themselves. *)
Inductive valid_sel (s : schema) (frags : amap string fragdef) : string -> selection -> Prop :=
| valid_leaf P p al n a d f :
    field_of s P n f -> ~ composite s (ft_name (sf_type f)) ->
    valid_sel s frags P (SField p al n a d [])
| valid_composite P p al n a d f sub :
    field_of s P n f -> composite s (ft_name (sf_type f)) -> sub <> [] ->
    valid_sels s frags (ft_name (sf_type f)) sub ->
    valid_sel s frags P (SField p al n a d sub)
| valid_inline P p c d sub :
    composite s c -> valid_sels s frags c sub -> valid_sel s frags P (SInline p (Some c) d sub)
| valid_spread P p name d fd :
    aget name frags = Some fd -> composite s (fr_cond fd) ->
    valid_sels s frags (fr_cond fd) (fr_sels fd) -> valid_sel s frags P (SSpread p name d)
with valid_sels (s : schema) (frags : amap string fragdef) : string -> list selection -> Prop :=
| valid_nil P : valid_sels s frags P []
| valid_cons P x l :
    valid_sel s frags P x -> valid_sels s frags P l -> valid_sels s frags P (x :: l).

(** A field's recorded kind agrees with the definition of the type it names *)
Definition kind_agrees (s : schema) (f : sfield) : Prop :=
  let t := option_map st_def (get_type s (ft_name (sf_type f))) in
  match ft_def (sf_type f) with
  | FDObject => exists fs, t = Some (TObject fs)
  | FDInterface => exists n fs ps, t = Some (TInterface n fs ps)
  | FDUnion => exists n ps fs, t = Some (TUnion n ps fs)
  | FDEnum => exists vs, t = Some (TEnum vs)
  | FDScalar _ | FDTypeName => ~ composite s (ft_name (sf_type f))
  | FDInputObject => False
  end.

(** Type references of all output fields are consistent (true of any schema a server can have) *)
Definition consistent (s : schema) : Prop :=
  forall c n f, field_of s c n f -> kind_agrees s f.
