(** Base definitions shared by the model: Rust strings as byte strings, Rust string helpers,
    hash maps as association lists, hash-map iteration order as an explicit oracle, sorting.
    No proofs in this file. *)
From Coq Require Export List String Ascii Arith Bool Permutation.
From Coq Require Import DecimalString Decimal.
Export ListNotations.
Open Scope string_scope.
Open Scope nat_scope.
Open Scope list_scope.

(** Rust [Result<A, E>]. *)
Inductive res (E A : Type) : Type :=
| Ok (a : A)
| Err (e : E).
Arguments Ok {E A} a.
Arguments Err {E A} e.

(** Outcome of a computation that may panic (Rust [panic!]: index out of range, ...) or exhaust the
    stack by unbounded recursion.  [Diverges] is produced only when the explicit fuel runs out. *)
Inductive outcome (A : Type) : Type :=
| Done (a : A)
| Panics
| Diverges.
Arguments Done {A} a.
Arguments Panics {A}.
Arguments Diverges {A}.

Infix "+++" := String.append (right associativity, at level 60).

(** ** Rust [str] helpers (std library; modelled on bytes, Coq [string] = byte string) *)

Definition nl : string := String (ascii_of_nat 10) EmptyString.   (* line feed *)
Definition dq : string := String (ascii_of_nat 34) EmptyString.   (* double quote *)

(** [str::strip_prefix] *)
Fixpoint strip_prefix (p s : string) : option string :=
  match p, s with
  | EmptyString, _ => Some s
  | String a p', String b s' => if Ascii.eqb a b then strip_prefix p' s' else None
  | String _ _, EmptyString => None
  end.

(** [str::starts_with] *)
Definition starts_with (p s : string) : bool :=
  match strip_prefix p s with Some _ => true | None => false end.

(** [str::rfind(char)] for an ASCII char: byte index of the last occurrence *)
Fixpoint rfind (c : ascii) (s : string) : option nat :=
  match s with
  | EmptyString => None
  | String a s' =>
      match rfind c s' with
      | Some i => Some (S i)
      | None => if Ascii.eqb a c then Some 0 else None
      end
  end.

(** [str::find(char)] for an ASCII char *)
Fixpoint find_char (c : ascii) (s : string) : option nat :=
  match s with
  | EmptyString => None
  | String a s' => if Ascii.eqb a c then Some 0 else option_map S (find_char c s')
  end.

Fixpoint drop (n : nat) (s : string) : string :=
  match n, s with
  | O, _ => s
  | S n', String _ s' => drop n' s'
  | S _, EmptyString => EmptyString
  end.

Fixpoint take (n : nat) (s : string) : string :=
  match n, s with
  | O, _ => EmptyString
  | S n', String a s' => String a (take n' s')
  | S _, EmptyString => EmptyString
  end.

(** [&s[a..b]]: panics ([None]) when a > b or b > len *)
Definition slice (s : string) (a b : nat) : option string :=
  if (a <=? b) && (b <=? String.length s) then Some (take (b - a) (drop a s)) else None.

(** [str::replace(pat, by)] for a non-empty pattern: leftmost non-overlapping occurrences.
    [skip] counts the bytes of the current occurrence still to be swallowed. *)
Fixpoint replace_from (pat by_ : string) (skip : nat) (s : string) : string :=
  match s with
  | EmptyString => EmptyString
  | String c s' =>
      match skip with
      | S k => replace_from pat by_ k s'
      | O =>
          if starts_with pat s
          then by_ +++ replace_from pat by_ (String.length pat - 1) s'
          else String c (replace_from pat by_ 0 s')
      end
  end.
Definition replace (pat by_ s : string) : string := replace_from pat by_ 0 s.

(** [str::repeat] for a one-space string *)
Fixpoint spaces (n : nat) : string :=
  match n with O => EmptyString | S k => String " "%char (spaces k) end.

(** Strips one trailing "\r" *)
Fixpoint strip_cr (s : string) : string :=
  match s with
  | EmptyString => EmptyString
  | String c EmptyString => if Ascii.eqb c (ascii_of_nat 13) then EmptyString else s
  | String c s' => String c (strip_cr s')
  end.

(** [str::lines]: split at "\n", a "\r" directly before the "\n" is removed, a final piece without
    "\n" is a line only if it is non-empty.  [acc] is the current line (in order). *)
Fixpoint lines_from (acc : string) (s : string) : list string :=
  match s with
  | EmptyString => match acc with EmptyString => [] | _ => [acc] end
  | String c s' =>
      if Ascii.eqb c (ascii_of_nat 10)
      then strip_cr acc :: lines_from EmptyString s'
      else lines_from (acc +++ String c EmptyString) s'
  end.
Definition lines (s : string) : list string := lines_from EmptyString s.

Definition byte (n : nat) : ascii := ascii_of_nat n.
Definition bs (l : list nat) : string :=
  fold_right (fun n s => String (byte n) s) EmptyString l.

(** UTF-8 encodings of all characters with the Unicode property White_Space, as used by
    [str::trim]. *)
Definition whitespace : list string :=
  List.map (fun n => bs [n]) [9; 10; 11; 12; 13; 32]
  ++ [ bs [194;133]; bs [194;160]; bs [225;154;128];
       bs [226;128;128]; bs [226;128;129]; bs [226;128;130]; bs [226;128;131]; bs [226;128;132];
       bs [226;128;133]; bs [226;128;134]; bs [226;128;135]; bs [226;128;136]; bs [226;128;137];
       bs [226;128;138]; bs [226;128;168]; bs [226;128;169]; bs [226;128;175]; bs [226;129;159];
       bs [227;128;128] ].

Fixpoint first_strip (ps : list string) (s : string) : option string :=
  match ps with
  | [] => None
  | p :: ps' => match strip_prefix p s with Some r => Some r | None => first_strip ps' s end
  end.

(** [str::trim_start]; [fuel] = length of the string, always enough *)
Fixpoint trim_start_fuel (fuel : nat) (s : string) : string :=
  match fuel with
  | O => s
  | S f => match first_strip whitespace s with Some r => trim_start_fuel f r | None => s end
  end.
Definition trim_start (s : string) : string := trim_start_fuel (String.length s) s.

Fixpoint srev_acc (s acc : string) : string :=
  match s with EmptyString => acc | String c s' => srev_acc s' (String c acc) end.
Definition srev (s : string) : string := srev_acc s EmptyString.

Fixpoint trim_end_rev_fuel (fuel : nat) (s : string) : string :=
  match fuel with
  | O => s
  | S f => match first_strip (List.map srev whitespace) s with
           | Some r => trim_end_rev_fuel f r
           | None => s
           end
  end.
Definition trim_end (s : string) : string :=
  srev (trim_end_rev_fuel (String.length s) (srev s)).

(** [str::trim] *)
Definition trim (s : string) : string := trim_end (trim_start s).

Definition is_empty (s : string) : bool := match s with EmptyString => true | _ => false end.

(** [usize::to_string] / Display for integers *)
Definition string_of_nat (n : nat) : string := NilZero.string_of_uint (Nat.to_uint n).

(** [[T]::join] on strings *)
Definition join (sep : string) (l : list string) : string := String.concat sep l.

(** ** Hash maps as association lists

    A Rust [HashMap] is modelled by its finite set of entries, stored in some order.  The stored
    order carries no meaning: every place where the Rust code *iterates* over a hash map or set goes
    through an [order] oracle, see below. *)
Class EqB (K : Type) := eqb : K -> K -> bool.
#[global] Instance EqB_string : EqB string := String.eqb.
#[global] Instance EqB_pair {A B} `{EqB A} `{EqB B} : EqB (A * B) :=
  fun x y => eqb (fst x) (fst y) && eqb (snd x) (snd y).

Definition amap (K V : Type) := list (K * V).

(** [HashMap::get] *)
Fixpoint aget {K V} `{EqB K} (k : K) (m : amap K V) : option V :=
  match m with
  | [] => None
  | (k', v) :: m' => if eqb k k' then Some v else aget k m'
  end.

Definition amem {K V} `{EqB K} (k : K) (m : amap K V) : bool :=
  match aget k m with Some _ => true | None => false end.

(** [HashMap::insert]: an existing value is replaced *)
Fixpoint aset {K V} `{EqB K} (k : K) (v : V) (m : amap K V) : amap K V :=
  match m with
  | [] => [(k, v)]
  | (k', v') :: m' => if eqb k k' then (k', v) :: m' else (k', v') :: aset k v m'
  end.

Definition akeys {K V} (m : amap K V) : list K := List.map fst m.

(** [HashSet<String>] *)
Definition smem (x : string) (s : list string) : bool := existsb (String.eqb x) s.
Definition sadd (x : string) (s : list string) : list string := if smem x s then s else s ++ [x].
Definition sunion (s t : list string) : list string := fold_left (fun acc x => sadd x acc) t s.

(** ** Iteration order

    Rust's [HashMap] iterates in an order that depends on a per-instance random seed.  An [order]
    gives, for each iteration site instance (identified by a path [list nat]), the order in which the
    entries are visited.  Theorems quantify over all [order]s that are permutations. *)
Definition order : Type := list nat -> forall A : Type, list A -> list A.
Definition order_ok (o : order) : Prop := forall p A (l : list A), Permutation l (o p A l).

(** ** Sorting ([sort_unstable_by] and friends)

    Insertion sort by a string key, byte-wise comparison as Rust's [Ord for str].  The order among
    equal keys is the input order; as the input order of every sorted sequence with possible ties
    comes from an [order] oracle, no additional behaviour is excluded by stability. *)
Definition str_leb (a b : string) : bool :=
  match String.compare a b with Gt => false | _ => true end.

Fixpoint insert_by {A} (key : A -> string) (x : A) (l : list A) : list A :=
  match l with
  | [] => [x]
  | y :: l' => if str_leb (key x) (key y) then x :: y :: l' else y :: insert_by key x l'
  end.
Definition sort_by {A} (key : A -> string) (l : list A) : list A :=
  fold_right (insert_by key) [] l.

(** Collecting an iterator of [Result]s into [Result<Vec<_>, _>]: first error wins. *)
Fixpoint collect_res {E A} (l : list (res E A)) : res E (list A) :=
  match l with
  | [] => Ok []
  | Err e :: _ => Err e
  | Ok a :: l' => match collect_res l' with Ok r => Ok (a :: r) | Err e => Err e end
  end.

Definition index_list {A} (l : list A) : list (nat * A) := combine (seq 0 (List.length l)) l.
