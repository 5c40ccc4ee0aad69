(** Specification side for the globals file: which enums and input objects it must define, and how. *)
From Verif Require Export SpecGql SpecDoc SpecLoad.
From Coq Require Export Sorted.

(** The input object [t] has a field whose (unwrapped) type is the enum or input object [m] *)
Definition mentions (t : stype) (m : string) : Prop :=
  exists nm fs fn f, st_def t = TInputObject nm fs /\ In (fn, f) fs /\ ft_name (sf_type f) = m /\
    (ft_def (sf_type f) = FDEnum \/ ft_def (sf_type f) = FDInputObject).
Definition refers (s : schema) (n m : string) : Prop := exists t, get_type s n = Some t /\ mentions t m.

(** Reachable from [n] through input object fields, in zero or more steps *)
Inductive leads (s : schema) : string -> string -> Prop :=
| leads_refl n : leads s n n
| leads_step n m k : refers s n m -> leads s m k -> leads s n k.
Definition needed (s : schema) (names : list string) (n : string) : Prop := exists r, In r names /\ leads s r n.

(** Input object types of a schema a server can have: fields are scalars, enums or input objects and
    refer to types of that kind; a type carries its own name; fields have distinct names *)
Definition input_field_ok (s : schema) (f : sfield) : Prop :=
  let t := option_map st_def (get_type s (ft_name (sf_type f))) in
  match ft_def (sf_type f) with
  | FDScalar _ => True
  | FDEnum => exists vs, t = Some (TEnum vs)
  | FDInputObject => exists nm fs, t = Some (TInputObject nm fs)
  | _ => False
  end.
Definition inputs_consistent (s : schema) : Prop :=
  forall n t nm fs, get_type s n = Some t -> st_def t = TInputObject nm fs ->
    nm = n /\ NoDup (List.map fst fs) /\ forall fn f, In (fn, f) fs -> input_field_ok s f.

(** No infinite chain of input objects starts at [n] *)
Definition wellfounded (s : schema) (n : string) : Prop := Acc (fun m n => refers s n m) n.

(** Types the globals file can hold *)
Definition global_type (s : schema) (n : string) : Prop :=
  exists t, get_type s n = Some t /\
    match st_def t with TEnum _ | TInputObject _ _ => True | _ => False end.

Definition sorted_by {A} (key : A -> string) (l : list A) : Prop :=
  StronglySorted (fun a b => str_leb (key a) (key b) = true) l.

(** One member line of an enum *)
Definition enum_member (v : string) : string := "  " +++ v +++ " = " +++ dq +++ v +++ dq +++ ",".

(** [g] allows null *)
Definition nullable (g : gtype) : bool := match g with GNonNull _ => false | _ => true end.
(** Number of list levels *)
Fixpoint list_levels (g : gtype) : nat :=
  match g with GNamed _ => 0 | GList g => S (list_levels g) | GNonNull g => list_levels g end.
