(** What collecting an arbitrary selection set reports, as a relation: warnings and errors in terms
    of the document and the schema alone.  [SelRunFacts] relates it to [collect]. *)
From Verif Require Export SpecSel Ir.

Section Run.
  Variable s : schema.
  Variable frags : amap string fragdef.
  Variable dep : bool.

  Definition tset : Type := string -> Prop.
  Definition narrow (c : string) (K : tset) : tset := fun T => possible s c T /\ K T.
  Definition empty_set (K : tset) : Prop := forall T, ~ K T.
  Definition lists (l : list string) (K : tset) : Prop := forall T, In T l <-> K T.

  Definition depr_of (js : jump) (p : pos) (f : sfield) (P : string) : list warning :=
    if dep && sf_deprecated f && is_local js then [WDeprecatedFieldUse p (sf_name f) P] else [].

  (** Errors for a type condition that is not composite *)
  Inductive bad_cond (c : string) (p : pos) : ir_error -> Prop :=
  | bc_missing : get_type s c = None -> bad_cond c p (EMissingType c)
  | bc_leaf t : get_type s c = Some t -> match st_def t with TScalar _ | TEnum _ => True | _ => False end ->
      bad_cond c p (ESelectionSetOnWrongType c p)
  | bc_input t n fs : get_type s c = Some t -> st_def t = TInputObject n fs ->
      bad_cond c p (EUnexpectedComplexTraversal c).

  Inductive narrow_warn (js : jump) (c : string) (p : pos) (K : tset) : list warning -> Prop :=
  | nw_over l : js <> FullyJumped -> empty_set (narrow c K) -> lists l K ->
      narrow_warn js c p K [WOverFragmentNarrowing p l c]
  | nw_jumped : js = FullyJumped -> narrow_warn js c p K []
  | nw_fine : ~ empty_set (narrow c K) -> narrow_warn js c p K [].

  Inductive srun : jump -> string -> tset -> selection -> list warning -> list ir_error -> Prop :=
  | sr_unknown js P K p al n a d sub l :
      (forall f, ~ field_of s P n f) -> lists l (fun x => exists f, field_of s P x f) ->
      srun js P K (SField p al n a d sub) [] [EUnknownField P n p l]
  | sr_no_sub js P K p al n a d f :
      field_of s P n f -> composite s (ft_name (sf_type f)) ->
      srun js P K (SField p al n a d []) [] [EMissingSelectionSetOnType (ft_name (sf_type f)) p]
  | sr_leaf_sub js P K p al n a d f x sub :
      field_of s P n f -> ~ composite s (ft_name (sf_type f)) ->
      srun js P K (SField p al n a d (x :: sub)) [] [ESelectionSetOnWrongType (ft_name (sf_type f)) p]
  | sr_leaf js P K p al n a d f :
      field_of s P n f -> ~ composite s (ft_name (sf_type f)) ->
      srun js P K (SField p al n a d []) (depr_of js p f P) []
  | sr_sub js P K p al n a d f x sub ws :
      field_of s P n f -> composite s (ft_name (sf_type f)) ->
      crun js (ft_name (sf_type f)) (possible s (ft_name (sf_type f))) (x :: sub) ws [] ->
      srun js P K (SField p al n a d (x :: sub)) (ws ++ depr_of js p f P) []
  | sr_sub_err js P K p al n a d f x sub ws e errs :
      field_of s P n f -> composite s (ft_name (sf_type f)) ->
      crun js (ft_name (sf_type f)) (possible s (ft_name (sf_type f))) (x :: sub) ws (e :: errs) ->
      srun js P K (SField p al n a d (x :: sub)) ws (e :: errs)
  | sr_no_cond js P K p d sub :
      srun js P K (SInline p None d sub) [] [EMissingTypeConditionOnInlineFragment p]
  | sr_inline js P K p c d sub ws errs :
      prun (jump_inline js) K c p sub ws errs -> srun js P K (SInline p (Some c) d sub) ws errs
  | sr_unknown_spread js P K p n d l :
      aget n frags = None -> lists l (fun x => exists fd, aget x frags = Some fd) ->
      srun js P K (SSpread p n d) [] [EUnknownFragment n p l]
  | sr_spread js P K p n d fd ws errs :
      aget n frags = Some fd -> prun (jump_foreign js) K (fr_cond fd) p (fr_sels fd) ws errs ->
      srun js P K (SSpread p n d) ws errs
  with prun : jump -> tset -> string -> pos -> list selection -> list warning -> list ir_error -> Prop :=
  | pr_bad js K c p sub e : ~ composite s c -> bad_cond c p e ->
      prun js K c p sub [] (if is_local js then [e] else [])
  | pr_ok js K c p sub w0 ws errs : composite s c -> narrow_warn js c p K w0 ->
      crun js c (narrow c K) sub ws errs ->
      prun js K c p sub (w0 ++ ws) (if is_local js then errs else [])
  with crun : jump -> string -> tset -> list selection -> list warning -> list ir_error -> Prop :=
  | cr_nil js P K : crun js P K [] [] []
  | cr_cons js P K x l ws es ws' es' :
      srun js P K x ws es -> crun js P K l ws' es' -> crun js P K (x :: l) (ws ++ ws') (es ++ es').

  Scheme srun_ind2 := Minimality for srun Sort Prop
    with prun_ind2 := Minimality for prun Sort Prop
    with crun_ind2 := Minimality for crun Sort Prop.
  Combined Scheme run_mutind from srun_ind2, prun_ind2, crun_ind2.
End Run.
