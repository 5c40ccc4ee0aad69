(** Specification side: the generated modules as syntax trees, the text that stands for a tree, and
    the values a declared type accepts.  Nothing here refers to the model of qlc. *)
From Verif Require Export SpecTs.

(** A property of an object type.  [m_comment] is the raw text in front of it. *)
Record member := { m_comment : string; m_readonly : bool; m_name : string; m_optional : bool;
                   m_type : texpr }.

Inductive decl : Type :=
| DObj (name : string) (ms : list member)         (* export type N = { ... }; *)
| DAlias (name : string) (alts : list string).    (* export type N = A | B; *)

Definition decl_name (d : decl) : string := match d with DObj n _ => n | DAlias n _ => n end.

(** Text of a member, a declaration *)
Definition member_reads (t : string) (m : member) : Prop :=
  exists e, reads e (m_type m) /\
    t = "  " +++ m_comment m +++ (if m_readonly m then "readonly " else "") +++ m_name m
        +++ (if m_optional m then "?" else "") +++ ": " +++ e +++ ";".
Definition decl_reads (t : string) (d : decl) : Prop :=
  match d with
  | DObj n ms => exists ls, Forall2 member_reads ls ms /\
      t = "export type " +++ n +++ " = {" +++ nl +++ join nl ls +++ nl +++ "};"
  | DAlias n alts => t = "export type " +++ n +++ " = " +++ join " | " alts +++ ";"
  end.

(** Type names occurring in an expression *)
Fixpoint texpr_names (e : texpr) : list string :=
  match e with
  | XName n => [n]
  | XLit _ | XNull => []
  | XArr e | XParen e => texpr_names e
  | XUnion a b => texpr_names a ++ texpr_names b
  end.
Definition decl_uses (d : decl) : list string :=
  match d with
  | DObj _ ms => flat_map (fun m => texpr_names (m_type m)) ms
  | DAlias _ alts => alts
  end.

(** Values of an object type: every required member is present with a value of its type *)
Definition obj_values (env : string -> value -> Prop) (ms : list member) (v : value) : Prop :=
  exists kvs, v = VObj kvs /\
    Forall (fun m => match aget (m_name m) kvs with
                     | Some x => denote env (m_type m) x
                     | None => m_optional m = true
                     end) ms.
Definition decl_values (env : string -> value -> Prop) (d : decl) (v : value) : Prop :=
  match d with
  | DObj _ ms => obj_values env ms v
  | DAlias _ alts => exists n, In n alts /\ env n v
  end.

(** Meaning of the type names of a module: declarations refer to earlier ones, [env] gives the
    meaning of builtins and imported names.  (Meaningful when no name is declared twice.) *)
Definition env_of (env : string -> value -> Prop) (ds : list decl) : string -> value -> Prop :=
  fold_left (fun env d n v => if String.eqb n (decl_name d) then decl_values env d v else env n v) ds env.
