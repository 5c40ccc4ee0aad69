(** Edit distance of two words, said without any algorithm: the number of single changes (adding,
    removing or replacing one element, exchanging two neighbours) that lead from one to the other. *)
From Verif Require Export Base.

Inductive edit1 : list ascii -> list ascii -> Prop :=
| ed_insert l r x : edit1 (l ++ r) (l ++ x :: r)
| ed_delete l r x : edit1 (l ++ x :: r) (l ++ r)
| ed_replace l r x y : edit1 (l ++ x :: r) (l ++ y :: r)
| ed_exchange l r x y : edit1 (l ++ x :: y :: r) (l ++ y :: x :: r).

(** [edits n a b]: [n] changes lead from [a] to [b] *)
Inductive edits : nat -> list ascii -> list ascii -> Prop :=
| ed_none a : edits 0 a a
| ed_more n a b c : edits n a b -> edit1 b c -> edits (S n) a c.

(** [name] and [other] are at most [n] typing mistakes apart *)
Definition mistakes (n : nat) (name other : string) : Prop :=
  exists m, m <= n /\ edits m (list_ascii_of_string name) (list_ascii_of_string other).
