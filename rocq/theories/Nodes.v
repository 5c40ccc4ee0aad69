(** Model of the types in pkg/npm/lib/typed-documentnode.d.ts, and of as much of TypeScript's conditional
    types as they use.  Types of data and variables are opaque ([ty]), with the type BasicObject among
    them.  Simplification: the properties of DocumentNode itself are one flag. *)
From Verif Require Export Package.

Inductive node_kind : Type := NQuery | NSubscription | NMutation | NFragment.

Section Nodes.
  Variable ty : Type.
  Variable basic_object : ty.      (* typed-documentnode.d.ts:3 *)
  Variable no_type : ty.           (* never *)

  (** A function type (v: Variables) => Data; without parameter for fragments *)
  Record fn := { fn_var : option ty; fn_data : ty }.
  (** An object type: whether it has what DocumentNode has, and the private properties it declares,
      each of them optional *)
  Record obj_type := { ob_document : bool; ob_prop : node_kind -> option fn }.

  Definition same_kind (a b : node_kind) : bool :=
    match a, b with
    | NQuery, NQuery | NSubscription, NSubscription | NMutation, NMutation | NFragment, NFragment => true
    | _, _ => false
    end.
  (** typed-documentnode.d.ts:5-38: DocumentNode & { readonly __typedDocumentNode...?: ... } *)
  Definition node (k : node_kind) (f : fn) : obj_type :=
    {| ob_document := true; ob_prop := fun k' => if same_kind k k' then Some f else None |}.

  (** T extends <Kind>DocumentNode<infer Data, infer Variables>: T must have what DocumentNode has; the
      property may be absent, as it is optional.  What is inferred comes from the property if it is
      there; a type variable without a candidate becomes its constraint, BasicObject. *)
  Definition extends (t : obj_type) (k : node_kind) : option fn :=
    if ob_document t
    then Some (match ob_prop t k with
               | Some f => {| fn_var := Some (match fn_var f with Some v => v | None => basic_object end); fn_data := fn_data f |}
               | None => {| fn_var := Some basic_object; fn_data := basic_object |}
               end)
    else None.

  (** typed-documentnode.d.ts:47-55 [DataOf], 64-73 [VariablesOf] *)
  Definition data_of (t : obj_type) : ty :=
    match extends t NQuery with
    | Some f => fn_data f
    | None =>
        match extends t NMutation with
        | Some f => fn_data f
        | None =>
            match extends t NSubscription with
            | Some f => fn_data f
            | None => match extends t NFragment with Some f => fn_data f | None => no_type end
            end
        end
    end.
  Definition var_or (f : fn) : ty := match fn_var f with Some v => v | None => no_type end.
  Definition variables_of (t : obj_type) : ty :=
    match extends t NQuery with
    | Some f => var_or f
    | None =>
        match extends t NMutation with
        | Some f => var_or f
        | None => match extends t NSubscription with Some f => var_or f | None => no_type end
        end
    end.
End Nodes.
Arguments fn_var {ty}.
Arguments fn_data {ty}.
