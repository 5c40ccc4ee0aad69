(** Specification side: unions that can be told apart by comparing a property with a literal (discriminated unions of TypeScript).
    In terms of field collection and of the meaning of declarations only. *)
From Verif Require Export SpecExact.

Section Narrow.
  Variable s : schema.
  Variable frags : amap string fragdef.

  (** Every possible object is asked for its type under the key [k] *)
  Definition tagged_by (P : string) (M : selset) (k : string) : Prop :=
    forall T, possible s P T -> exists Q f ss, occ s frags T P M k Q "__typename" ss /\ field_of s Q "__typename" f.
  (** The property [k] is declared as one of the literals [ts] *)
  Definition literals_at (ms : list member) (k : string) (ts : list string) : Prop :=
    exists m, In m ms /\ m_name m = k /\ forall env v, denote env (m_type m) v <-> exists T, In T ts /\ v = VStr T.

  (** The type [main] of the declarations [D], for objects of type [P] asked for [M]: a union of object types, each for some types of
      objects, and for which is told by any property that all of them have for [__typename] *)
  Inductive narrows (D : list decl) : string -> selset -> string -> Prop :=
  | narrows_intro P (M : selset) main (alts : list (string * (list string * list member))) :
      alternatives D main (List.map fst alts) -> NoDup (List.map fst alts) ->
      (forall n ts ms, In (n, (ts, ms)) alts -> In (DObj n ms) D /\ NoDup (List.map m_name ms) /\ ts <> [] /\
         forall k, tagged_by P M k -> literals_at ms k ts) ->
      (* all types of objects, each in one alternative *)
      (forall T, possible s P T <-> exists n ts ms, In (n, (ts, ms)) alts /\ In T ts) ->
      (forall T n ts ms n' ts' ms', In (n, (ts, ms)) alts -> In (n', (ts', ms')) alts -> In T ts -> In T ts' -> n = n' /\ ts = ts' /\ ms = ms') ->
      (* with what is asked for of its objects, and nothing else *)
      (forall n ts ms T k, In (n, (ts, ms)) alts -> In T ts -> (In k (List.map m_name ms) <-> key s frags P M T k)) ->
      (* after comparing the property with a literal one alternative is left *)
      (forall base i kvs k x, tagged_by P M k -> accepts D base i main (VObj kvs) -> aget k kvs = Some x ->
         exists T, possible s P T /\ x = VStr T /\
           forall n ts ms, In (n, (ts, ms)) alts -> ((exists j, accepts D base j n (VObj kvs)) <-> In T ts)) ->
      (* and so on for the objects in it *)
      (forall n ts ms T m f ss sub, In (n, (ts, ms)) alts -> In T ts -> In m ms -> focc s frags T P M (m_name m) f ss ->
         composite s (ft_name (sf_type f)) -> core_of (m_type m) = XName sub ->
         narrows D (ft_name (sf_type f)) (merged (focc s frags T P M) (m_name m) (ft_name (sf_type f))) sub) ->
      narrows D P M main.
End Narrow.
