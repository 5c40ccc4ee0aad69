(** Model of src/graphql/ir.rs (field collection, intermediate representation) and
    src/graphql/variable.rs. *)
From Verif Require Export Base Schema Ast.

(** ** src/graphql/variable.rs *)

(** variable.rs:11-15 [Error] *)
Inductive var_error : Type :=
| VUnknownCustomType (name : string) (p : pos)
| VUnprocessable (name : string) (p : pos)
| VListOfList (name : string) (p : pos).

(** variable.rs:20-27 [VariableType] *)
Inductive vtype : Type := VId | VString | VFloat | VInt | VBoolean | VCustom (name : string).

(** variable.rs:89-93 [Variable] *)
Record variable := { v_name : string; v_mod : fmod; v_type : vtype }.

(** variable.rs:29-50 [TryFrom<(&CompileContext, &str, Pos)> for VariableType] *)
Definition vtype_of_name (s : schema) (name : string) (p : pos) : res var_error vtype :=
  if String.eqb name "ID" then Ok VId
  else if String.eqb name "String" then Ok VString
  else if String.eqb name "Float" then Ok VFloat
  else if String.eqb name "Int" then Ok VInt
  else if String.eqb name "Boolean" then Ok VBoolean
  else match get_type s name with
       | None => Err (VUnknownCustomType name p)
       | Some _ => Ok (VCustom name)
       end.

(** variable.rs:115-176 [unwrap_var_def] *)
Definition unwrap_var_def (d : vardef) : res var_error (fmod * string) :=
  let unprocessable := Err (VUnprocessable (vd_name d) (vd_pos d)) in
  let list_of_list := Err (VListOfList (vd_name d) (vd_pos d)) in
  match vd_type d with
  | VTNamed name => Ok (MNullable, name)
  | VTNonNull inner =>
      match inner with
      | VTNamed name => Ok (MNone, name)
      | VTNonNull _ => unprocessable
      | VTList inner =>
          match inner with
          | VTNamed name => Ok (MListOfNullable, name)
          | VTNonNull inner =>
              match inner with
              | VTNamed name => Ok (MList, name)
              | _ => unprocessable
              end
          | VTList _ => list_of_list
          end
      end
  | VTList inner =>
      match inner with
      | VTList _ => list_of_list
      | VTNamed name => Ok (MNullableListOfNullable, name)
      | VTNonNull inner =>
          match inner with
          | VTNamed name => Ok (MNullableList, name)
          | _ => unprocessable
          end
      end
  end.

(** variable.rs:103-110: one variable *)
Definition build_variable (s : schema) (d : vardef) : res var_error variable :=
  match unwrap_var_def d with
  | Err e => Err e
  | Ok (m, graph_name) =>
      match vtype_of_name s graph_name (vd_pos d) with
      | Err e => Err e
      | Ok t => Ok {| v_name := vd_name d; v_mod := m; v_type := t |}
      end
  end.

(** variable.rs:95-113 [try_build_variable_ir] *)
Definition try_build_variable_ir (s : schema) (defs : list vardef)
  : res var_error (option (list variable)) :=
  match defs with
  | [] => Ok None
  | _ => match collect_res (List.map (build_variable s) defs) with
         | Ok vs => Ok (Some vs)
         | Err e => Err e
         end
  end.

(** ** src/graphql/ir.rs *)

(** ir.rs:14-25 [Warning] *)
Inductive warning : Type :=
| WOverFragmentNarrowing (p : pos) (possible_types : list string) (spread_type_name : string)
| WDeprecatedFieldUse (p : pos) (field_name parent_type_name : string).

(** ir.rs:56-60 [ForeignFragmentJumpState] *)
Inductive jump := RootLocal | JustChanged | FullyJumped.

(** ir.rs:63-69 [is_fully_jumped], [is_local] *)
Definition is_fully_jumped (j : jump) : bool := match j with FullyJumped => true | _ => false end.
Definition is_local (j : jump) : bool := match j with RootLocal => true | _ => false end.
(** ir.rs:71-77 [jump_inline_one_level] *)
Definition jump_inline (j : jump) : jump := if is_local j then RootLocal else FullyJumped.
(** ir.rs:79-85 [jump_foreigin_one_level] *)
Definition jump_foreign (j : jump) : jump := if is_local j then JustChanged else FullyJumped.

(** ir.rs:89-112 [Error] *)
Inductive ir_error : Type :=
| ESelectionSetAsOperationUnsupported (p : pos)
| EUnknownFragment (name : string) (p : pos) (possible : list string)
| EMissingTypeConditionOnInlineFragment (p : pos)
| ESelectionSetOnWrongType (name : string) (p : pos)
| EMissingSelectionSetOnType (name : string) (p : pos)
| EUnknownField (parent_type_name field_name : string) (p : pos) (possible : list string)
| EVariable (e : var_error)
| EMissingType (name : string)
| EUnexpectedComplexTraversal (name : string)
| EInputObjectOnSelection (field_name type_name : string)
| EMixedTerminalAndComplexFields (terminal_type_name complex_type_name : string).

(** ir.rs:206-211 [CompileContext]; the [RefCell] of warnings is threaded through the functions *)
Record ctx := { cx_schema : schema; cx_deprecations : bool; cx_frags : amap string fragdef;
                cx_order : order }.

(** ir.rs:434-437 [FieldTraversal], 291-294 [TerminalTraversal], 302-308 [ComplexTraversal],
    229-232 [UniqueFields] keyed by [FieldId] (ir.rs:227) = (alias, *type* name), see ir.rs:684,695 *)
Inductive ftrav : Type :=
| FTerm (type_name : string)
| FCplx (type_name : string) (lookup : fields_lookup)
        (objs : list (string * list ((string * string) * (sfield * ftrav)))).
Definition ufields := amap (string * string) (sfield * ftrav).
Record ctrav := { ct_name : string; ct_lookup : fields_lookup; ct_objs : amap string ufields }.
Definition ftrav_of_ctrav (c : ctrav) : ftrav := FCplx (ct_name c) (ct_lookup c) (ct_objs c).

(** A Rust loop whose body ends in [?]: stops at the first error, keeping the mutations done so far *)
Fixpoint fold_err {X St E} (f : X -> St -> St * option E) (l : list X) (s : St) : St * option E :=
  match l with
  | [] => (s, None)
  | x :: l' => let (s', e) := f x s in
               match e with
               | Some _ => (s', e)
               | None => fold_err f l' s'
               end
  end.

(** ir.rs:241-257 [UniqueFields::insert]; [ext] is [FieldTraversal::extend_from(.., traversal)] *)
Definition uf_insert_with (ext : ftrav -> ftrav * option ir_error) (key : string * string)
           (field : sfield) (tr : ftrav) (u : ufields) : ufields * option ir_error :=
  match aget key u with
  | Some (f0, t0) => let (t', e) := ext t0 in (aset key (f0, t') u, e)
  | None => (aset key (field, tr) u, None)
  end.

(** ir.rs:369-371: body of the loop in [ComplexTraversal::extend_from] *)
Definition co_update (x : string * (ufields -> ufields * option ir_error)) (objs : amap string ufields)
  : amap string ufields * option ir_error :=
  match aget (fst x) objs with
  | Some u => let (u', e) := snd x u in (aset (fst x) u' objs, e)
  | None => (objs, None)
  end.

(** ir.rs:440-457 [FieldTraversal::extend_from], 367-374 [ComplexTraversal::extend_from] and
    259-264 [UniqueFields::extend_from], mutually recursive in Rust, here one recursion on [other].
    The two hash-map iterations use the order oracle; to keep the recursion structural the loop
    bodies are first paired with their entries and then permuted. *)
Fixpoint extend_ft (o : order) (other : ftrav) (p : list nat) (self : ftrav) {struct other}
  : ftrav * option ir_error :=
  match other with
  | FTerm otn =>
      match self with
      | FTerm _ => (self, None)
      | FCplx ctn _ _ => (self, Some (EMixedTerminalAndComplexFields otn ctn))
      end
  | FCplx otn _ oobjs =>
      match self with
      | FTerm stn => (self, Some (EMixedTerminalAndComplexFields stn otn))
      | FCplx stn slk sobjs =>
          let steps :=
            (fix prep (i : nat) (l : list (string * list ((string * string) * (sfield * ftrav)))) :=
               match l with
               | [] => []
               | (tn, ou) :: l' =>
                   let ents :=
                     (fix prepu (j : nat) (l : list ((string * string) * (sfield * ftrav))) :=
                        match l with
                        | [] => []
                        | (k, (f, tr)) :: r =>
                            uf_insert_with (extend_ft o tr (j :: i :: p)) k f tr :: prepu (S j) r
                        end) 0 ou in
                   (tn, fold_err (fun g u => g u) (o (i :: p) _ ents)) :: prep (S i) l'
               end) 0 oobjs in
          let (objs', e) := fold_err co_update (o p _ steps) sobjs in
          (FCplx stn slk objs', e)
      end
  end.

(** ir.rs:367-374 [ComplexTraversal::extend_from] on two complex traversals *)
Definition extend_ct (o : order) (p : list nat) (self other : ctrav) : ctrav * option ir_error :=
  match extend_ft o (ftrav_of_ctrav other) p (ftrav_of_ctrav self) with
  | (FCplx n l ob, e) => ({| ct_name := n; ct_lookup := l; ct_objs := ob |}, e)
  | (FTerm _, e) => (self, e)   (* impossible: extending keeps the constructor *)
  end.

(** ir.rs:336-365 [insert_terminal] / [insert_complex]: the same traversal is inserted into every
    concrete object, visited in hash order *)
Definition insert_all (o : order) (p : list nat) (alias name : string) (field : sfield) (tr : ftrav)
           (c : ctrav) : ctrav * option ir_error :=
  let step := fun x => co_update (snd x, uf_insert_with (extend_ft o tr (fst x :: 1 :: p)) (alias, name) field tr) in
  let (objs', e) := fold_err step (o (0 :: p) _ (index_list (akeys (ct_objs c)))) (ct_objs c) in
  ({| ct_name := ct_name c; ct_lookup := ct_lookup c; ct_objs := objs' |}, e).

(** ir.rs:410-424: initial concrete objects of a composite type *)
Definition initial_objs (type_name : string) (d : tdef) : option (amap string ufields) :=
  match d with
  | TObject _ => Some [(type_name, [])]
  | TInterface _ _ possible | TUnion _ possible _ =>
      Some (fold_left (fun m t => aset t [] m) possible [])
  | _ => None
  end.

(** ir.rs:397-431 [TryFrom<(&CompileContext, &str, Pos)> for ComplexTraversal] *)
Definition new_ctrav (s : schema) (type_name : string) (p : pos) : res ir_error ctrav :=
  match get_type s type_name with
  | None => Err (EMissingType type_name)
  | Some t =>
      match get_fields_lookup (st_def t) with
      | None => Err (ESelectionSetOnWrongType type_name p)
      | Some lk =>
          match initial_objs type_name (st_def t) with
          | None => Err (EUnexpectedComplexTraversal type_name)
          | Some objs => Ok {| ct_name := type_name; ct_lookup := lk; ct_objs := objs |}
          end
      end
  end.

(** ir.rs:311-334 [ComplexTraversal::clone_for_type_spread] *)
Definition clone_for_type_spread (cx : ctx) (pth : list nat) (self : ctrav) (spread_type : string)
           (p : pos) (js : jump) : res ir_error (ctrav * list warning) :=
  match new_ctrav (cx_schema cx) spread_type p with
  | Err e => Err e
  | Ok base =>
      let objs := filter (fun x => amem (fst x) (ct_objs self)) (ct_objs base) in
      let base' := {| ct_name := ct_name base; ct_lookup := ct_lookup base; ct_objs := objs |} in
      let ws := if negb (is_fully_jumped js) && (match objs with [] => true | _ => false end)
                then [WOverFragmentNarrowing p (cx_order cx pth _ (akeys (ct_objs self))) spread_type]
                else [] in
      Ok (base', ws)
  end.

(** Result of a collection: mutated parent, warnings pushed, errors ([[]] = Rust [Ok(())]) *)
Definition cresult : Type := (ctrav * list warning * list ir_error)%type.
Definition collector : Type := list nat -> list selection -> ctrav -> jump -> option cresult.

Definition opt_list {A} (x : option A) : list A := match x with Some a => [a] | None => [] end.

(** ir.rs:650-708 [insert_field]; [rec] is [collect_fields_from_selection_set] *)
Definition insert_field (rec : collector) (cx : ctx) (pth : list nat) (p : pos) (alias : option string)
           (name : string) (sub : list selection) (trav : ctrav) (js : jump) : option cresult :=
  let alias := match alias with Some a => a | None => name end in
  match aget name (ct_lookup trav) with
  | None =>
      Some (trav, [], [EUnknownField (ct_name trav) name p
                         (cx_order cx (0 :: pth) _ (akeys (ct_lookup trav)))])
  | Some field =>
      let ty := sf_type field in
      let tn := ft_name ty in
      let depr :=
        if cx_deprecations cx && sf_deprecated field && is_local js
        then [WDeprecatedFieldUse p (sf_name field) (ct_name trav)] else [] in
      match sub, fdef_is_complex (ft_def ty) with
      | [], true => Some (trav, [], [EMissingSelectionSetOnType tn p])
      | _ :: _, false => Some (trav, [], [ESelectionSetOnWrongType tn p])
      | [], false =>
          match insert_all (cx_order cx) (1 :: pth) alias tn field (FTerm tn) trav with
          | (trav', Some e) => Some (trav', [], [e])
          | (trav', None) => Some (trav', depr, [])
          end
      | _ :: _, true =>
          match new_ctrav (cx_schema cx) tn p with
          | Err e => Some (trav, [], [e])
          | Ok sub_parent =>
              match rec (2 :: pth) sub sub_parent js with
              | None => None
              | Some (_, ws, (_ :: _) as errs) => Some (trav, ws, errs)
              | Some (sub_parent', ws, []) =>
                  match insert_all (cx_order cx) (1 :: pth) alias tn field
                                   (ftrav_of_ctrav sub_parent') trav with
                  | (trav', Some e) => Some (trav', ws, [e])
                  | (trav', None) => Some (trav', ws ++ depr, [])
                  end
              end
          end
      end
  end.

(** ir.rs:769-797: the spread part of the loop body.  [inl] = continue the loop with the new parent,
    warnings and errors to add; [inr] = the [?] of line 790 fired, returning only that error. *)
Definition spread_into (rec : collector) (cx : ctx) (pth : list nat) (type_name : string) (p : pos)
           (sub : list selection) (parent : ctrav) (njs : jump) : option (cresult + cresult) :=
  match clone_for_type_spread cx (0 :: pth) parent type_name p njs with
  | Err e => Some (inl (parent, [], if is_local njs then [e] else []))
  | Ok (sub_parent, ws) =>
      match rec (1 :: pth) sub sub_parent njs with
      | None => None
      | Some (sub_parent', ws', []) =>
          match extend_ct (cx_order cx) (2 :: pth) parent sub_parent' with
          | (parent', None) => Some (inl (parent', ws ++ ws', []))
          | (parent', Some e) => Some (inr (parent', ws ++ ws', [e]))
          end
      | Some (_, ws', errs) => Some (inl (parent, ws ++ ws', if is_local njs then errs else []))
      end
  end.

(** ir.rs:717-798: the loop over the selections of [collect_fields_from_selection_set] *)
Fixpoint collect_loop (rec : collector) (cx : ctx) (pth : list nat) (i : nat) (sels : list selection)
         (parent : ctrav) (js : jump) (ws : list warning) (errs : list ir_error) : option cresult :=
  match sels with
  | [] => Some (parent, ws, errs)
  | sel :: rest =>
      let continue (r : option (cresult + cresult)) :=
        match r with
        | None => None
        | Some (inl (parent', ws', errs')) =>
            collect_loop rec cx pth (S i) rest parent' js (ws ++ ws') (errs ++ errs')
        | Some (inr (parent', ws', errs')) => Some (parent', ws ++ ws', errs')
        end in
      match sel with
      | SField p alias name _ _ sub =>
          continue (option_map inl (insert_field rec cx (i :: pth) p alias name sub parent js))
      | SInline p cond _ sub =>
          match cond with
          | Some tn => continue (spread_into rec cx (i :: pth) tn p sub parent (jump_inline js))
          | None => continue (Some (inl (parent, [], [EMissingTypeConditionOnInlineFragment p])))
          end
      | SSpread p name _ =>
          match aget name (cx_frags cx) with
          | Some f => continue (spread_into rec cx (i :: pth) (fr_cond f) p (fr_sels f) parent
                                            (jump_foreign js))
          | None => continue (Some (inl (parent, [],
                      [EUnknownFragment name p (cx_order cx (i :: pth) _ (akeys (cx_frags cx)))])))
          end
      end
  end.

(** ir.rs:710-805 [collect_fields_from_selection_set].  Each nested call consumes one unit of fuel;
    [None] = fuel exhausted (in Rust: deeper recursion). *)
Fixpoint collect (fuel : nat) (cx : ctx) : collector :=
  fun pth sels parent js =>
    match fuel with
    | O => None
    | S f => collect_loop (collect f cx) cx pth 0 sels parent js [] []
    end.

(** ir.rs:461-486 [Field], [FieldType], [Complex], [ComplexCollection] *)
Inductive irfield : Type :=
| IRField (prop_name : string) (doc : option string) (deprecated : bool)
          (last : fmod) (rest : list fmod) (ty : irtype)
with irtype : Type :=
| ITypeName
| IComplex (possibilities : list ircomplex)
| IEnum (name : string)
| IScalar (s : scalar)
with ircomplex : Type :=
| IRComplex (name : string) (fields : list irfield).

Definition irf_prop (f : irfield) : string := let (p, _, _, _, _, _) := f in p.
Definition irc_name (c : ircomplex) : string := let (n, _) := c in n.
Definition irc_fields (c : ircomplex) : list irfield := let (_, fs) := c in fs.

(** ir.rs:621-648 [get_type_ir_for_field], 267-289 [TryFrom<UniqueFields> for Vec<Field>] and
    377-395 [TryFrom<ComplexTraversal> for ComplexCollection], mutually recursive in Rust.  The
    conversion of each entry is pure, so it is computed first and the results are then visited in
    hash order: the first error in that order wins. *)
Fixpoint type_ir (o : order) (p : list nat) (field : sfield) (tr : ftrav) {struct tr}
  : res ir_error irtype :=
  match ft_def (sf_type field) with
  | FDInputObject => Err (EInputObjectOnSelection (sf_name field) (ft_name (sf_type field)))
  | FDTypeName => Ok ITypeName
  | FDScalar s => Ok (IScalar s)
  | FDEnum => Ok (IEnum (ft_name (sf_type field)))
  | FDInterface | FDUnion | FDObject =>
      match tr with
      | FTerm tn => Err (EUnexpectedComplexTraversal tn)
      | FCplx _ _ objs =>
          let cs :=
            (fix conv (i : nat) (l : list (string * list ((string * string) * (sfield * ftrav)))) :=
               match l with
               | [] => []
               | (name, u) :: l' =>
                   let fs :=
                     (fix convu (j : nat) (l : list ((string * string) * (sfield * ftrav))) :=
                        match l with
                        | [] => []
                        | ((alias, _), (f, t)) :: r =>
                            match type_ir o (j :: i :: p) f t with
                            | Err e => Err e
                            | Ok ty => Ok (IRField alias (sf_doc f) (sf_deprecated f)
                                             (ft_mod (sf_type f)) (ft_rest (sf_type f)) ty)
                            end :: convu (S j) r
                        end) 0 u in
                   match collect_res (o (i :: p) _ fs) with
                   | Err e => Err e
                   | Ok fs' => Ok (IRComplex name (sort_by irf_prop fs'))
                   end :: conv (S i) l'
               end) 0 objs in
          match collect_res (o p _ cs) with
          | Err e => Err e
          | Ok cs' => Ok (IComplex (sort_by irc_name cs'))
          end
      end
  end.

(** A field standing for a composite value, used to convert a root traversal with [type_ir] *)
Definition root_field : sfield :=
  {| sf_name := ""; sf_doc := None;
     sf_type := {| ft_name := ""; ft_mod := MNone; ft_def := FDObject; ft_rest := [] |};
     sf_deprecated := false |}.

(** ir.rs:377-395 [TryFrom<ComplexTraversal> for ComplexCollection] *)
Definition collection_of (o : order) (p : list nat) (c : ctrav) : res ir_error (list ircomplex) :=
  match type_ir o p root_field (ftrav_of_ctrav c) with
  | Ok (IComplex cs) => Ok cs
  | Ok _ => Ok []            (* impossible: [root_field] is composite *)
  | Err e => Err e
  end.

(** ir.rs:499-505 [OperationKind] *)
Inductive okind := OKQuery | OKSubscription | OKMutation | OKFragment.

(** ir.rs:488-497 [From<&str> for OperationKind] *)
Definition okind_of_name (name : string) : okind :=
  if String.eqb name "Mutation" then OKMutation
  else if String.eqb name "Subscription" then OKSubscription
  else if String.eqb name "Query" then OKQuery
  else OKFragment.

(** ir.rs:508-513 [Operation] *)
Record operation := { op_name : string; op_collection : list ircomplex;
                      op_variables : option (list variable); op_kind : okind }.

(** ir.rs:576-607: operation type name and fallback name *)
Definition op_type_name (k : opkind) : string :=
  match k with KQuery => "Query" | KMutation => "Mutation" | KSubscription => "Query" end.
Definition op_fallback_name (k : opkind) : string :=
  match k with KQuery => "Query" | KMutation => "Mutation" | KSubscription => "Subscription" end.

(** Result of compiling to IR: warnings, and either errors or the operation *)
Definition ir_result : Type := (list warning * res (list ir_error) operation)%type.

(** ir.rs:571-619 [build_from_operation] *)
Definition build_from_operation (fuel : nat) (cx : ctx) (op : opdef) : option ir_result :=
  match op with
  | OpSelectionSet p _ => Some ([], Err [ESelectionSetAsOperationUnsupported p])
  | OpNamed k p name vars _ sels =>
      match new_ctrav (cx_schema cx) (op_type_name k) p with
      | Err e => Some ([], Err [e])
      | Ok parent =>
          match collect fuel cx [0] sels parent RootLocal with
          | None => None
          | Some (_, ws, (_ :: _) as errs) => Some (ws, Err errs)
          | Some (parent', ws, []) =>
              match collection_of (cx_order cx) [1] parent' with
              | Err e => Some (ws, Err [e])
              | Ok coll =>
                  match try_build_variable_ir (cx_schema cx) vars with
                  | Err e => Some (ws, Err [EVariable e])
                  | Ok vs =>
                      Some (ws, Ok {| op_name := match name with
                                                 | Some n => n
                                                 | None => op_fallback_name k
                                                 end;
                                      op_collection := coll;
                                      op_variables := vs;
                                      op_kind := okind_of_name (op_type_name k) |})
                  end
              end
          end
      end
  end.

(** ir.rs:516-568 [Operation::compile] *)
Definition compile_definition (fuel : nat) (cx : ctx) (d : definition) : option ir_result :=
  match d with
  | DOp op => build_from_operation fuel cx op
  | DFrag f =>
      match new_ctrav (cx_schema cx) (fr_cond f) (fr_pos f) with
      | Err e => Some ([], Err [e])
      | Ok parent =>
          match collect fuel cx [0] (fr_sels f) parent RootLocal with
          | None => None
          | Some (_, ws, (_ :: _) as errs) => Some (ws, Err errs)
          | Some (parent', ws, []) =>
              match collection_of (cx_order cx) [1] parent' with
              | Err e => Some (ws, Err [e])
              | Ok coll => Some (ws, Ok {| op_name := fr_name f; op_collection := coll;
                                           op_variables := None; op_kind := OKFragment |})
              end
          end
      end
  end.
