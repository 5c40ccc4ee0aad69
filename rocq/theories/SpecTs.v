(** Specification side: the fragment of TypeScript's type syntax that occurs in generated files, a
    reader for it, and the set of JSON values a type expression accepts.  Nothing here refers to the
    model of qlc. *)
From Verif Require Export Base.

(** ** JSON values *)
Inductive value : Type :=
| VNull
| VBool (b : bool)
| VNum (repr : string)
| VStr (s : string)
| VList (l : list value)
| VObj (fields : list (string * value)).

(** ** Type expressions *)
Inductive texpr : Type :=
| XName (n : string)            (* string, any, MyType, ... *)
| XLit (s : string)             (* a string literal type *)
| XNull
| XArr (e : texpr)
| XUnion (a b : texpr)
| XParen (e : texpr).

(** Which values a type expression accepts, given the meaning [env] of type names *)
Fixpoint denote (env : string -> value -> Prop) (e : texpr) (v : value) : Prop :=
  match e with
  | XName n => env n v
  | XLit s => v = VStr s
  | XNull => v = VNull
  | XArr e => exists l, v = VList l /\ Forall (denote env e) l
  | XUnion a b => denote env a v \/ denote env b v
  | XParen e => denote env e v
  end.

(** ** Reading type expressions: postfix [[]] binds tighter than [|], parentheses group *)

(** Characters of (possibly qualified) names: letters, digits, underscore, dollar, dot, non-ASCII *)
Definition name_char (a : ascii) : bool :=
  let n := nat_of_ascii a in
  ((65 <=? n) && (n <=? 90)) || ((97 <=? n) && (n <=? 122)) || ((48 <=? n) && (n <=? 57))
  || (n =? 95) || (n =? 36) || (n =? 46) || (128 <=? n).

(** Longest prefix of name characters *)
Fixpoint span_name (s : string) : string * string :=
  match s with
  | EmptyString => (EmptyString, EmptyString)
  | String c s' => if name_char c then let (a, b) := span_name s' in (String c a, b)
                   else (EmptyString, s)
  end.

(** Text up to the next double quote *)
Fixpoint span_quote (s : string) : option (string * string) :=
  match s with
  | EmptyString => None
  | String c s' => if Ascii.eqb c (ascii_of_nat 34) then Some (EmptyString, s')
                   else match span_quote s' with
                        | Some (a, b) => Some (String c a, b)
                        | None => None
                        end
  end.

Fixpoint read_arrs (fuel : nat) (e : texpr) (r : string) : option (texpr * string) :=
  match fuel with
  | O => None
  | S f => match strip_prefix "[]" r with
           | None => Some (e, r)
           | Some r' => read_arrs f (XArr e) r'
           end
  end.

Fixpoint read_union (fuel : nat) (s : string) : option (texpr * string) :=
  match fuel with
  | O => None
  | S f => match read_post f s with Some (e, r) => read_alts f e r | None => None end
  end
with read_alts (fuel : nat) (e : texpr) (r : string) : option (texpr * string) :=
  match fuel with
  | O => None
  | S f => match strip_prefix " | " r with
           | None => Some (e, r)
           | Some r' => match read_post f r' with
                        | Some (e', r'') => read_alts f (XUnion e e') r''
                        | None => None
                        end
           end
  end
with read_post (fuel : nat) (s : string) : option (texpr * string) :=
  match fuel with
  | O => None
  | S f => match read_prim f s with Some (e, r) => read_arrs f e r | None => None end
  end
with read_prim (fuel : nat) (s : string) : option (texpr * string) :=
  match fuel with
  | O => None
  | S f =>
      match strip_prefix "(" s with
      | Some s' => match read_union f s' with
                   | Some (e, r) => match strip_prefix ")" r with
                                    | Some r' => Some (XParen e, r')
                                    | None => None
                                    end
                   | None => None
                   end
      | None =>
          match strip_prefix dq s with
          | Some s' => match span_quote s' with Some (l, r) => Some (XLit l, r) | None => None end
          | None => let (n, r) := span_name s in
                    if is_empty n then None
                    else if String.eqb n "null" then Some (XNull, r) else Some (XName n, r)
          end
      end
  end.

(** The text [s] is the type expression [e] *)
Definition reads (s : string) (e : texpr) : Prop := exists fuel, read_union fuel s = Some (e, "").

(** A usable type name *)
Definition is_name (n : string) : Prop :=
  snd (span_name n) = "" /\ n <> "" /\ n <> "null".
Definition is_nameb (n : string) : bool :=
  is_empty (snd (span_name n)) && negb (is_empty n) && negb (String.eqb n "null").
