(** Specification side: how the declarations of a module name the object types of a value. *)
From Verif Require Export SpecMod SpecReg Cli Typescript.

(** The type expression under list, parenthesis and [| null] wrappers *)
Fixpoint core_of (e : texpr) : texpr :=
  match e with
  | XArr e | XParen e => core_of e
  | XUnion a XNull => core_of a
  | _ => e
  end.

(** The alternatives of the type called [main]: those of the union declared under that name, or the
    type itself *)
Definition alternatives (D : list decl) (main : string) (alts : list string) : Prop :=
  alts = [main] \/ In (DAlias main alts) D.

(** The alternative for objects of type [T]: the only one, the one named after [T], or else the one
    for the rest *)
Definition alternative (main : string) (alts : list string) (T n : string) : Prop :=
  In n alts /\
  (alts = [main] \/ n = main +++ "_" +++ T \/ n = main +++ "_$$other" /\ ~ In (main +++ "_" +++ T) alts).

(** TypeScript's name for a scalar *)
Definition scalar_written (c : cconfig) (sc : scalar) (n : string) : Prop :=
  match sc with
  | ScBoolean => n = "boolean"
  | ScString | ScId => n = "string"
  | ScInt | ScFloat => n = "number"
  | ScCustom x => match cc_bottom c with BottomAny => n = "any" | BottomReal => n = x | BottomPrefix p => n = p +++ x end
  end.
