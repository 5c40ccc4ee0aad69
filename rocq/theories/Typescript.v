(** Model of src/typescript.rs and src/typescript/field.rs: rendering of the intermediate
    representation to TypeScript, byte for byte. *)
From Verif Require Export Ir.

(** graphql.rs:24-29 [BottomTypeConfig] *)
Inductive bottom_config : Type := BottomAny | BottomReal | BottomPrefix (prefix : string).

(** graphql.rs:31-40 [CompileConfig] *)
Record cconfig := { cc_root_dir : string; cc_deprecations : bool; cc_readonly : bool;
                    cc_bottom : bottom_config; cc_import_prefix : option string;
                    cc_globals_module : string; cc_docnode_module : string }.

(** typescript.rs:19-26 [Error] *)
Inductive ts_error : Type :=
| TMissingType (name : string)
| TNotGlobalType (name : string)
| TInvalidFieldDef (field_type_name field_name : string)
| TExpectedAtLeastOnePossibility.

(** typescript.rs:13-16 [HEADER] *)
Definition header : string :=
  "/* eslint-disable */" +++ nl +++
  "// This file was automatically generated and should not be edited." +++ nl +++ nl.

(** typescript.rs:262-271 [compile_custom_scalar_name] *)
Definition custom_scalar_name (c : cconfig) (name : string) : string :=
  match cc_bottom c with
  | BottomAny => "any"
  | BottomReal => name
  | BottomPrefix s => s +++ name
  end.

(** typescript/field.rs:4-15 [compile_scalar], used for input object fields *)
Definition compile_scalar (c : cconfig) (s : scalar) : string :=
  match s with
  | ScBoolean => "boolean"
  | ScString | ScId => "string"
  | ScFloat | ScInt => "number"
  | ScCustom name =>
      match cc_bottom c with
      | BottomAny => "any"
      | BottomReal => name
      | BottomPrefix s => s +++ name
      end
  end.

(** typescript.rs:273-280 [type_name_from_scalar], used for result types: a textual copy *)
Definition scalar_ts (c : cconfig) (s : scalar) : string :=
  match s with
  | ScBoolean => "boolean"
  | ScString | ScId => "string"
  | ScFloat | ScInt => "number"
  | ScCustom name => custom_scalar_name c name
  end.

(** typescript.rs:239-260 [compile_documentation] *)
Definition compile_documentation (doc : option string) (deprecated : bool) (tab_width : nat) : string :=
  let tab := spaces tab_width in
  let sep := nl +++ " " +++ tab +++ "* " in
  let processed := option_map (fun d => replace "*/" "" (replace "/*" "" (replace nl sep d))) doc in
  let wrap content := "/**" +++ nl +++ " " +++ tab +++ "* " +++ content +++ nl +++ " " +++ tab
                      +++ "*/" +++ nl +++ tab in
  match processed, deprecated with
  | Some docs, true => wrap (docs +++ sep +++ "@deprecated")
  | Some docs, false => wrap docs
  | None, true => wrap "@deprecated"
  | None, false => ""
  end.

(** typescript.rs:282-296 [single_prop_type_def] *)
Definition single_prop_type_def (m : fmod) (inner : string) : string :=
  match m with
  | MNone => inner
  | MNullable => inner +++ " | null"
  | MList => inner +++ "[]"
  | MNullableList => inner +++ "[] | null"
  | MListOfNullable => "(" +++ inner +++ " | null)[]"
  | MNullableListOfNullable => "(" +++ inner +++ " | null)[] | null"
  end.

(** typescript.rs:298-308 [prop_type_def] *)
Definition prop_type_def (firsts : list fmod) (last : fmod) (flat : string) : string :=
  fold_left (fun result m => single_prop_type_def m ("(" +++ result +++ ")")) firsts
            (single_prop_type_def last flat).

(** typescript.rs:310-316 [field_ids_for_complex_ir] *)
Definition field_ids (x : ircomplex) : list string := sunion [] (List.map irf_prop (irc_fields x)).

(** [HashSet == HashSet] *)
Definition set_eqb (a b : list string) : bool :=
  forallb (fun x => smem x b) a && forallb (fun x => smem x a) b.

(** Rendering state: the set of global type names used so far ([&mut HashSet<String>]).  On an error
    the set is discarded by the only caller ([compile_ir]). *)
Definition gset := list string.

(** A possibility prepared for rendering: its name, its property names and its renderer, which takes
    the name used for [__typename] and the declaration name *)
Definition renderer : Type := list nat -> string -> string -> gset -> res ts_error (list string * gset).
Record poss := { po_name : string; po_ids : list string; po_render : renderer }.

(** typescript.rs:318-331 [type_definitions_from_smoosh_complex_ir] *)
Definition smoosh (o : order) (p : list nat) (render : renderer) (names : list string) (type_name : string)
           (g : gset) : res ts_error (list string * gset) :=
  render (2 :: p) (join (dq +++ " | " +++ dq) (sort_by (fun x => x) (o (1 :: p) _ names))) type_name g.

(** typescript.rs:378-394: the loop over possibilities that are not smooshed *)
Fixpoint render_possibilities (p : list nat) (i : nat) (ps : list poss) (repeated : list string)
         (main : string) (g : gset) (defs names : list string) (rep : option poss)
  : res ts_error (list string * list string * gset * option poss) :=
  match ps with
  | [] => Ok (defs, names, g, rep)
  | x :: ps' =>
      if smem (po_name x) repeated
      then render_possibilities p (S i) ps' repeated main g defs names (Some x)
      else
        let path := main +++ "_" +++ po_name x in
        match po_render x (i :: 0 :: p) (po_name x) path g with
        | Err e => Err e
        | Ok (ds, g') =>
            render_possibilities p (S i) ps' repeated main g' (defs ++ ds) (names ++ [path]) rep
        end
  end.

(** typescript.rs:333-411 [type_definitions_from_complex_field_collection] *)
Definition ts_collection (o : order) (p : list nat) (ps : list poss) (main : string) (g : gset)
  : res ts_error (list string * gset) :=
  match ps with
  | [] => Err TExpectedAtLeastOnePossibility
  | [first] => po_render first (0 :: p) (po_name first) main g
  | first :: others =>
      let common := fold_left (fun cm x => filter (fun n => smem n (po_ids x)) cm) others (po_ids first) in
      let repeated := sunion [] (List.map po_name (filter (fun x => set_eqb common (po_ids x)) ps)) in
      if Nat.eqb (List.length ps) (List.length repeated)
      then smoosh o p (po_render first) repeated main g
      else
        match render_possibilities p 0 ps repeated main g [] [] None with
        | Err e => Err e
        | Ok (defs, names, g', rep) =>
            let finish defs names g :=
              Ok (defs ++ ["export type " +++ main +++ " = " +++ join " | " names +++ ";"], g) in
            match rep with
            | None => finish defs names g'
            | Some x =>
                let sname := main +++ "_$$other" in
                match smoosh o p (po_render x) repeated sname g' with
                | Err e => Err e
                | Ok (ds, g'') => finish (defs ++ ds) (names ++ [sname]) g''
                end
            end
        end
  end.

(** typescript.rs:442-455: the property line *)
Definition prop_line (c : cconfig) (prop : string) (doc : option string) (deprecated : bool)
           (last : fmod) (rest : list fmod) (flat : string) : string :=
  "  " +++ compile_documentation doc deprecated 2 +++ (if cc_readonly c then "readonly " else "")
  +++ prop +++ ": " +++ prop_type_def rest last flat +++ ";".

(** typescript.rs:413-461 [type_definitions_from_complex_ir], mutually recursive with
    [type_definitions_from_complex_field_collection] *)
Fixpoint ts_field (c : cconfig) (o : order) (f : irfield) {struct f}
  : list nat -> string -> string -> gset -> res ts_error (list string * string * gset) :=
  match f with
  | IRField prop doc depr last rest ty =>
      fun p cname path g =>
        match ts_type c o ty p cname (path +++ "_" +++ prop) g with
        | Err e => Err e
        | Ok (defs, flat, g') => Ok (defs, prop_line c prop doc depr last rest flat, g')
        end
  end
with ts_type (c : cconfig) (o : order) (t : irtype) {struct t}
  : list nat -> string -> string -> gset -> res ts_error (list string * string * gset) :=
  match t with
  | IComplex xs =>
      fun p _ sub g =>
        match ts_collection o p (List.map (fun x => {| po_name := irc_name x; po_ids := field_ids x;
                                                       po_render := ts_complex c o x |}) xs) sub g with
        | Err e => Err e
        | Ok (defs, g') => Ok (defs, sub, g')
        end
  | IEnum name => fun _ _ _ g => Ok ([], name, sadd name g)
  | IScalar s => fun _ _ _ g => Ok ([], scalar_ts c s, g)
  | ITypeName => fun _ cname _ g => Ok ([], dq +++ cname +++ dq, g)
  end
with ts_complex (c : cconfig) (o : order) (x : ircomplex) {struct x} : renderer :=
  match x with
  | IRComplex _ fields =>
      fun p cname path g =>
        (fix go (j : nat) (fs : list irfield) (g : gset) (defs props : list string) :=
           match fs with
           | [] => Ok (defs ++ ["export type " +++ path +++ " = {" +++ nl +++ join nl props +++ nl +++ "};"], g)
           | f :: fs' =>
               match ts_field c o f (j :: p) cname path g with
               | Err e => Err e
               | Ok (ds, prop, g') => go (S j) fs' g' (defs ++ ds) (props ++ [prop])
               end
           end) 0 fields g [] []
  end.

Definition prepare (c : cconfig) (o : order) (x : ircomplex) : poss :=
  {| po_name := irc_name x; po_ids := field_ids x; po_render := ts_complex c o x |}.

(** typescript.rs:463-488 [compile_variable_type_name] *)
Definition variable_type_name (c : cconfig) (s : schema) (v : variable) (g : gset)
  : res ts_error (string * gset) :=
  match v_type v with
  | VId | VString => Ok ("string", g)
  | VFloat | VInt => Ok ("number", g)
  | VBoolean => Ok ("boolean", g)
  | VCustom name =>
      match get_type s name with
      | None => Err (TMissingType name)
      | Some t => match st_def t with
                  | TScalar _ => Ok (custom_scalar_name c name, g)
                  | _ => Ok (name, sadd name g)
                  end
      end
  end.

(** typescript.rs:499-508: types of all variables, first error wins *)
Fixpoint variable_types (c : cconfig) (s : schema) (vs : list variable) (g : gset)
  : res ts_error (list (variable * string) * gset) :=
  match vs with
  | [] => Ok ([], g)
  | v :: vs' =>
      match variable_type_name c s v g with
      | Err e => Err e
      | Ok (tn, g') =>
          match variable_types c s vs' g' with
          | Err e => Err e
          | Ok (r, g'') => Ok ((v, prop_type_def [] (v_mod v) tn) :: r, g'')
          end
      end
  end.

(** typescript.rs:513-520: one line of the variables type *)
Definition variable_line (x : variable * string) : string :=
  match v_mod (fst x) with
  | MNullable | MNullableList | MNullableListOfNullable =>
      "  " +++ v_name (fst x) +++ "?: " +++ snd x +++ ";"
  | _ => "  " +++ v_name (fst x) +++ ": " +++ snd x +++ ";"
  end.

(** typescript.rs:490-534 [compile_variables_type_definition]: name and contents.
    Simplification: [sort_unstable_by_key] is modelled as stable, which matters only for operations
    that declare the same variable twice. *)
Definition variables_definition (c : cconfig) (s : schema) (op : operation) (g : gset)
  : res ts_error (option (string * string) * gset) :=
  match op_variables op with
  | None => Ok (None, g)
  | Some vs =>
      match variable_types c s vs g with
      | Err e => Err e
      | Ok (r, g') =>
          let name := op_name op +++ "Variables" in
          let lines := List.map variable_line (sort_by (fun x => v_name (fst x)) r) in
          Ok (Some (name, nl +++ nl +++ "export type " +++ name +++ " = {" +++ nl
                          +++ join nl lines +++ nl +++ "};"), g')
      end
  end.

(** typescript.rs:536-557 [compile_imports] *)
Definition compile_imports (c : cconfig) (o : order) (node : string) (g : gset) : string :=
  match g with
  | [] => "import type { " +++ node +++ " } from " +++ dq +++ cc_docnode_module c +++ dq +++ ";" +++ nl +++ nl
  | _ => "import type { " +++ node +++ " } from " +++ dq +++ cc_docnode_module c +++ dq +++ ";" +++ nl
         +++ "import type { " +++ join ", " (sort_by (fun x => x) (o [1] _ g)) +++ " } from " +++ dq
         +++ cc_globals_module c +++ dq +++ ";" +++ nl +++ nl
  end.

(** typescript.rs:573-578: document node type per operation kind *)
Definition docnode_name (k : okind) : string :=
  match k with
  | OKMutation => "MutationDocumentNode"
  | OKSubscription => "SubscriptionDocumentNode"
  | OKFragment => "FragmentDocumentNode"
  | OKQuery => "QueryDocumentNode"
  end.

(** typescript.rs:69-72 [Compile] *)
Record compiled := { co_contents : string; co_globals : gset }.

(** typescript.rs:559-600 [compile_ir] *)
Definition compile_ir (c : cconfig) (o : order) (s : schema) (op : operation) : res ts_error compiled :=
  match ts_collection o [0] (List.map (prepare c o) (op_collection op)) (op_name op) [] with
  | Err e => Err e
  | Ok (defs, g) =>
      match variables_definition c s op g with
      | Err e => Err e
      | Ok (vdef, g') =>
          let node := docnode_name (op_kind op) in
          let imports := compile_imports c o node g' in
          let variables := match vdef with Some (_, contents) => contents | None => "" end in
          let var_name := match vdef with Some (name, _) => name | None => "never" end in
          let annotation :=
            match op_kind op with
            | OKFragment => node +++ "<" +++ op_name op +++ ">"
            | _ => node +++ "<" +++ op_name op +++ ", " +++ var_name +++ ">"
            end in
          Ok {| co_contents := header +++ imports +++ join (nl +++ nl) defs +++ variables +++ nl +++ nl
                               +++ "declare const graphqlDocument: " +++ annotation +++ ";" +++ nl
                               +++ "export default graphqlDocument;";
                co_globals := g' |}
      end
  end.

(** ** Global types file *)

(** typescript.rs:74-92 [from_input_def_field_def] *)
Definition input_field_type (c : cconfig) (field_name : string) (f : sfield) : res ts_error string :=
  match ft_def (sf_type f) with
  | FDScalar s => Ok (compile_scalar c s)
  | FDEnum => Ok (ft_name (sf_type f))
  | FDInputObject => Ok (ft_name (sf_type f))
  | _ => Err (TInvalidFieldDef (ft_name (sf_type f)) field_name)
  end.

(** typescript.rs:102-122: the line of one input object field *)
Definition input_field_line (c : cconfig) (x : string * sfield) : res ts_error string :=
  let (name, f) := x in
  let doc := compile_documentation (sf_doc f) (sf_deprecated f) 2 in
  match input_field_type c name f with
  | Err e => Err e
  | Ok t =>
      Ok match ft_mod (sf_type f) with
         | MNone => "  " +++ doc +++ name +++ ": " +++ t +++ ";"
         | MNullable => "  " +++ doc +++ name +++ "?: " +++ t +++ " | null;"
         | MNullableList => "  " +++ doc +++ name +++ "?: " +++ t +++ "[] | null;"
         | MList => "  " +++ doc +++ name +++ ": " +++ t +++ "[];"
         | MListOfNullable => "  " +++ doc +++ name +++ ": (" +++ t +++ " | null)[];"
         | MNullableListOfNullable => "  " +++ doc +++ name +++ "?: (" +++ t +++ " | null)[] | null;"
         end
  end.

(** typescript.rs:94-130 [input_def_from_type] *)
Definition input_def (c : cconfig) (o : order) (p : list nat) (name : string) (fields : fields_lookup)
  : res ts_error string :=
  match collect_res (List.map (input_field_line c) (sort_by fst (o p _ fields))) with
  | Err e => Err e
  | Ok ls => Ok ("export type " +++ name +++ " = {" +++ nl +++ join nl ls +++ nl +++ "};")
  end.

(** typescript.rs:132-146 [enum_def_from_type] *)
Definition enum_def (name : string) (doc : option string) (values : list string) : string :=
  compile_documentation doc false 0 +++ "export enum " +++ name +++ " {" +++ nl
  +++ join nl (sort_by (fun x => x)
                 (List.map (fun v => "  " +++ v +++ " = " +++ dq +++ v +++ dq +++ ",") values))
  +++ nl +++ "}".

(** A loop that may run out of fuel or stop at the first error *)
Fixpoint fold_res {X St E} (f : X -> St -> option (res E St)) (l : list X) (s : St) : option (res E St) :=
  match l with
  | [] => Some (Ok s)
  | x :: l' =>
      match f x s with
      | Some (Ok s') => fold_res f l' s'
      | r => r
      end
  end.

(** typescript.rs:148-192 [add_sub_input_objects] and [add_sub_input_object_field]: one unit of fuel
    per nested input object; [None] = out of fuel *)
Fixpoint add_sub_inputs (fuel : nat) (s : schema) (o : order) (p : list nat) (cur : stype)
         (m : amap string stype) : option (res ts_error (amap string stype)) :=
  match fuel with
  | O => None
  | S k =>
      match st_def cur with
      | TInputObject _ fields =>
          fold_res
            (fun (x : nat * sfield) m =>
               let t := sf_type (snd x) in
               match ft_def t with
               | FDInputObject =>
                   match get_type s (ft_name t) with
                   | None => Some (Err (TMissingType (ft_name t)))
                   | Some gt => add_sub_inputs k s o (fst x :: p) gt (aset (ft_name t) gt m)
                   end
               | FDEnum =>
                   match get_type s (ft_name t) with
                   | None => Some (Err (TMissingType (ft_name t)))
                   | Some gt => Some (Ok (aset (ft_name t) gt m))
                   end
               | FDScalar _ => Some (Ok m)
               | _ => Some (Err (TInvalidFieldDef (ft_name t) (sf_name (snd x))))
               end)
            (o p _ (index_list (List.map snd fields))) m
      | _ => Some (Ok m)
      end
  end.

(** typescript.rs:200-206: seeding with the used names *)
Definition add_global (fuel : nat) (s : schema) (o : order) (x : nat * string) (m : amap string stype)
  : option (res ts_error (amap string stype)) :=
  match get_type s (snd x) with
  | None => Some (Err (TMissingType (snd x)))
  | Some gt =>
      match add_sub_inputs fuel s o [fst x; 1] gt m with
      | Some (Ok m') => Some (Ok (aset (snd x) gt m'))
      | r => r
      end
  end.

(** typescript.rs:212-223: definition of one global type *)
Definition global_def (c : cconfig) (o : order) (x : nat * (string * stype)) : res ts_error string :=
  let '(i, (name, t)) := x in
  match st_def t with
  | TEnum vs => Ok (enum_def name (st_doc t) vs)
  | TInputObject n fields => input_def c o [i; 3] n fields
  | _ => Err (TNotGlobalType name)
  end.

(** typescript.rs:194-226 [global_types_from_names] *)
Definition global_defs (fuel : nat) (c : cconfig) (o : order) (s : schema) (names : gset)
  : option (res ts_error (list string)) :=
  match fold_res (add_global fuel s o) (o [0] _ (index_list names)) [] with
  | None => None
  | Some (Err e) => Some (Err e)
  | Some (Ok m) =>
      Some (collect_res (List.map (global_def c o) (index_list (sort_by fst (o [2] _ m)))))
  end.

(** typescript.rs:228-237 [compile_globals] *)
Definition compile_globals (fuel : nat) (c : cconfig) (o : order) (s : schema) (names : gset)
  : option (res ts_error string) :=
  match global_defs fuel c o s names with
  | None => None
  | Some (Err e) => Some (Err e)
  | Some (Ok ds) => Some (Ok (header +++ join (nl +++ nl) ds))
  end.
