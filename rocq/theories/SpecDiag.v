(** Specification of diagnostics: which selections a document contains itself, at which static type;
    which of them are invalid, which use a deprecated field, which narrow to nothing; and which
    nested selection sets a compiler has to visit.  Uses only the schema and AST data types and the
    data types of errors and warnings. *)
From Verif Require Export SpecSel Ir.

Section Diag.
  Variable s : schema.
  Variable frags : amap string fragdef.

  (** [within P l P' x]: selection [x] is written in the selection set [l] of static type [P] - not
      in an imported fragment - at static type [P'] *)
  Inductive within : string -> list selection -> string -> selection -> Prop :=
  | wi_here P l x : In x l -> within P l P x
  | wi_field P l p al n a d f sub P' x :
      In (SField p al n a d sub) l -> field_of s P n f -> composite s (ft_name (sf_type f)) ->
      within (ft_name (sf_type f)) sub P' x -> within P l P' x
  | wi_inline P l p c d sub P' x :
      In (SInline p (Some c) d sub) l -> composite s c -> within c sub P' x -> within P l P' x.

  (** Scalars and enums *)
  Definition leaf_type (c : string) : Prop :=
    exists t, get_type s c = Some t /\ match st_def t with TScalar _ | TEnum _ => True | _ => False end.

  (** Invalid selections, with the errors that describe them *)
  Inductive complaint : string -> selection -> ir_error -> Prop :=
  | co_unknown_field P p al n a d sub l :
      (forall f, ~ field_of s P n f) -> (forall x, In x l <-> exists f, field_of s P x f) ->
      complaint P (SField p al n a d sub) (EUnknownField P n p l)
  | co_missing_sub P p al n a d f :
      field_of s P n f -> composite s (ft_name (sf_type f)) ->
      complaint P (SField p al n a d []) (EMissingSelectionSetOnType (ft_name (sf_type f)) p)
  | co_leaf_sub P p al n a d f sub :
      field_of s P n f -> ~ composite s (ft_name (sf_type f)) -> sub <> [] ->
      complaint P (SField p al n a d sub) (ESelectionSetOnWrongType (ft_name (sf_type f)) p)
  | co_no_condition P p d sub :
      complaint P (SInline p None d sub) (EMissingTypeConditionOnInlineFragment p)
  | co_unknown_type P p c d sub :
      get_type s c = None -> complaint P (SInline p (Some c) d sub) (EMissingType c)
  | co_leaf_type P p c d sub :
      leaf_type c -> complaint P (SInline p (Some c) d sub) (ESelectionSetOnWrongType c p)
  | co_input_type P p c d sub t n fs :
      get_type s c = Some t -> st_def t = TInputObject n fs ->
      complaint P (SInline p (Some c) d sub) (EUnexpectedComplexTraversal c)
  | co_unknown_fragment P p n d l :
      aget n frags = None -> (forall x, In x l <-> exists fd, aget x frags = Some fd) ->
      complaint P (SSpread p n d) (EUnknownFragment n p l).

  (** The invalid selections themselves *)
  Inductive bad_selection : string -> selection -> Prop :=
  | bad_unknown_field P p al n a d sub :
      (forall f, ~ field_of s P n f) -> bad_selection P (SField p al n a d sub)
  | bad_missing_sub P p al n a d f :
      field_of s P n f -> composite s (ft_name (sf_type f)) -> bad_selection P (SField p al n a d [])
  | bad_leaf_sub P p al n a d f sub :
      field_of s P n f -> ~ composite s (ft_name (sf_type f)) -> sub <> [] ->
      bad_selection P (SField p al n a d sub)
  | bad_no_condition P p d sub : bad_selection P (SInline p None d sub)
  | bad_condition P p c d sub : ~ composite s c -> bad_selection P (SInline p (Some c) d sub)
  | bad_fragment P p n d : aget n frags = None -> bad_selection P (SSpread p n d).

  (** Positions *)
  Definition sel_pos (x : selection) : pos :=
    match x with SField p _ _ _ _ _ | SSpread p _ _ | SInline p _ _ _ => p end.
  Inductive written : list selection -> selection -> Prop :=
  | wr_here l x : In x l -> written l x
  | wr_field l p al n a d sub x : In (SField p al n a d sub) l -> written sub x -> written l x
  | wr_inline l p c d sub x : In (SInline p c d sub) l -> written sub x -> written l x.

  (** Uses of deprecated fields, inner selections before the field that encloses them *)
  Fixpoint deprecated_uses (P : string) (x : selection) : list (pos * string * string) :=
    match x with
    | SField p _ n _ _ sub =>
        let f := match get_type s P with
                 | Some t => match st_def t with
                             | TObject fs | TInterface _ fs _ | TUnion _ _ fs => aget n fs
                             | _ => None
                             end
                 | None => None
                 end in
        match f with
        | None => []
        | Some f => flat_map (deprecated_uses (ft_name (sf_type f))) sub ++
                    (if sf_deprecated f then [(p, sf_name f, P)] else [])
        end
    | SInline _ (Some c) _ sub => flat_map (deprecated_uses c) sub
    | _ => []
    end.

  (** Spreads that no concrete type can satisfy: [K] is the set of concrete types possible at this
      point.  [vacuous K l out]: [out] lists, in document order, the position, the type condition and
      the possible types of each such spread of [l] and of its nested selections. *)
  Definition types : Type := string -> Prop.
  Definition both (c : string) (K : types) : types := fun T => possible s c T /\ K T.
  Definition none (K : types) : Prop := forall T, ~ K T.
  Inductive vacuous_sel : string -> types -> selection -> list (pos * string * types) -> Prop :=
  | va_leaf P (K : types) p al n a d :
      vacuous_sel P K (SField p al n a d []) []
  | va_sub P (K : types) p al n a d f sub out :
      field_of s P n f -> composite s (ft_name (sf_type f)) -> sub <> [] ->
      vacuous (ft_name (sf_type f)) (possible s (ft_name (sf_type f))) sub out ->
      vacuous_sel P K (SField p al n a d sub) out
  | va_inline P (K : types) p c d sub out :
      ~ none (both c K) -> vacuous c (both c K) sub out ->
      vacuous_sel P K (SInline p (Some c) d sub) out
  | va_inline_none P (K : types) p c d sub out :
      none (both c K) -> vacuous c (both c K) sub out ->
      vacuous_sel P K (SInline p (Some c) d sub) ((p, c, K) :: out)
  | va_spread P (K : types) p n d fd :
      aget n frags = Some fd -> ~ none (both (fr_cond fd) K) -> vacuous_sel P K (SSpread p n d) []
  | va_spread_none P (K : types) p n d fd :
      aget n frags = Some fd -> composite s (fr_cond fd) -> none (both (fr_cond fd) K) ->
      vacuous_sel P K (SSpread p n d) [(p, fr_cond fd, K)]
  | va_spread_bad P (K : types) p n d fd :
      aget n frags = Some fd -> ~ composite s (fr_cond fd) -> vacuous_sel P K (SSpread p n d) []
  with vacuous : string -> types -> list selection -> list (pos * string * types) -> Prop :=
  | va_nil P K : vacuous P K [] []
  | va_cons P K x l out out' :
      vacuous_sel P K x out -> vacuous P K l out' -> vacuous P K (x :: l) (out ++ out').

  (** Nested selection sets a selection set leads to, through fields, inline fragments and spreads *)
  Inductive leads : string * list selection -> string * list selection -> Prop :=
  | le_field P l p al n a d f sub :
      In (SField p al n a d sub) l -> field_of s P n f -> composite s (ft_name (sf_type f)) -> sub <> [] ->
      leads (P, l) (ft_name (sf_type f), sub)
  | le_inline P l p c d sub :
      In (SInline p (Some c) d sub) l -> composite s c -> leads (P, l) (c, sub)
  | le_spread P l p n d fd :
      In (SSpread p n d) l -> aget n frags = Some fd -> composite s (fr_cond fd) ->
      leads (P, l) (fr_cond fd, fr_sels fd).

  (** Fragment names spread anywhere in a selection set *)
  Inductive spreads : list selection -> string -> Prop :=
  | spr_here l p n d : In (SSpread p n d) l -> spreads l n
  | spr_field l p al n a d sub m : In (SField p al n a d sub) l -> spreads sub m -> spreads l m
  | spr_inline l p c d sub m : In (SInline p c d sub) l -> spreads sub m -> spreads l m.
  Definition frag_spreads (a b : string) : Prop :=
    exists fd, aget a frags = Some fd /\ spreads (fr_sels fd) b.
End Diag.

(** Root selection set of a definition and its type: GraphQL's default root operation types, or the
    type condition of a fragment.  Anonymous [{ ... }] documents are not supported by qlc. *)
Definition root_type (k : opkind) : string :=
  match k with KQuery => "Query" | KMutation => "Mutation" | KSubscription => "Subscription" end.
Definition doc_root (d : definition) : option (string * list selection) :=
  match d with
  | DOp (OpSelectionSet _ _) => None
  | DOp (OpNamed k _ _ _ _ sels) => Some (root_type k, sels)
  | DFrag f => Some (fr_cond f, fr_sels f)
  end.
Definition is_subscription (d : definition) : bool :=
  match d with DOp (OpNamed KSubscription _ _ _ _ _) => true | _ => false end.
Definition doc_vars (d : definition) : list vardef :=
  match d with DOp (OpNamed _ _ _ vars _ _) => vars | _ => [] end.
Definition doc_pos (d : definition) : pos :=
  match d with
  | DOp (OpSelectionSet p _) => p
  | DOp (OpNamed _ p _ _ _ _) => p
  | DFrag f => fr_pos f
  end.

(** Position a diagnostic carries, if any *)
Definition error_pos (e : ir_error) : option pos :=
  match e with
  | ESelectionSetAsOperationUnsupported p | EUnknownFragment _ p _ | EMissingTypeConditionOnInlineFragment p
  | ESelectionSetOnWrongType _ p | EMissingSelectionSetOnType _ p | EUnknownField _ _ p _
  | EVariable (VUnknownCustomType _ p) | EVariable (VUnprocessable _ p) | EVariable (VListOfList _ p) => Some p
  | EMissingType _ | EUnexpectedComplexTraversal _ | EInputObjectOnSelection _ _
  | EMixedTerminalAndComplexFields _ _ => None
  end.
(** Positions of a definition: its own, its variables', its selections' *)
Inductive position_in (d : definition) : pos -> Prop :=
| pi_def : position_in d (doc_pos d)
| pi_var v : In v (doc_vars d) -> position_in d (vd_pos v)
| pi_sel P l x : doc_root d = Some (P, l) -> written l x -> position_in d (sel_pos x).
