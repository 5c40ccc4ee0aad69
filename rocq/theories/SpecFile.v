(** Specification side: a generated module as a whole. *)
From Verif Require Export SpecMod SpecTsFacts.

(** Text of members and declarations; [print_texpr] writes an expression as it is read *)
Definition member_text (m : member) : string :=
  "  " +++ m_comment m +++ (if m_readonly m then "readonly " else "") +++ m_name m
  +++ (if m_optional m then "?" else "") +++ ": " +++ print_texpr (m_type m) +++ ";".
Definition decl_text (d : decl) : string :=
  match d with
  | DObj n ms => "export type " +++ n +++ " = {" +++ nl +++ join nl (List.map member_text ms) +++ nl +++ "};"
  | DAlias n alts => "export type " +++ n +++ " = " +++ join " | " alts +++ ";"
  end.

(** A module: the document node type imported from [tf_node_from], the names imported from
    [tf_globals_from], the declared types, and the type arguments of the default export *)
Record tsfile := { tf_node : string; tf_node_from : string; tf_globals : list string; tf_globals_from : string;
                   tf_decls : list decl; tf_args : list string }.

Definition import_text (names : list string) (from : string) : string :=
  "import type { " +++ join ", " names +++ " } from " +++ dq +++ from +++ dq +++ ";" +++ nl.
Definition banner : string :=
  "/* eslint-disable */" +++ nl +++ "// This file was automatically generated and should not be edited." +++ nl +++ nl.
Definition tsfile_text (x : tsfile) : string :=
  banner +++ import_text [tf_node x] (tf_node_from x)
  +++ (match tf_globals x with [] => "" | gs => import_text gs (tf_globals_from x) end) +++ nl
  +++ join (nl +++ nl) (List.map decl_text (tf_decls x)) +++ nl +++ nl
  +++ "declare const graphqlDocument: " +++ tf_node x +++ "<" +++ join ", " (tf_args x) +++ ">;" +++ nl
  +++ "export default graphqlDocument;".
