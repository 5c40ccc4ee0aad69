(** Model of [generic_damerau_levenshtein] of the crate strsim 0.10.0, which cli.rs:10, 500-510 uses to
    find the names close to a mistyped one.  The crate is not part of /repo (Cargo.lock pins it); this
    file follows its published source line by line: one flat vector of (|a|+2)*(|b|+2) cells, a row and
    a column of sentinels, a hash map from elements to their last row.
    [comparison_name.as_ref()] (cli.rs:504) is inferred at [&[u8]], the only slice type [str] can be
    borrowed as, so the elements compared are bytes.
    Simplified: [usize] is unbounded, subtraction is truncated and reading outside the vector gives 0
    ([StrsimFacts] shows that neither happens). *)
From Verif Require Export Base.

#[global] Instance EqB_ascii : EqB ascii := Ascii.eqb.

(** [v[i]] *)
Definition cell (v : list nat) (i : nat) : nat := nth i v 0.

(** [v[i] = x] *)
Fixpoint put_cell (v : list nat) (i x : nat) : list nat :=
  match v, i with
  | [], _ => []
  | _ :: t, 0 => x :: t
  | h :: t, S i' => h :: put_cell t i' x
  end.

(** The elements of a word: its bytes, addressed from 0 *)
Definition elem (w : list ascii) (i : nat) : ascii := nth i w zero.

(** The vector before the main loop: [distances[0] = max_distance], then the two initialising loops *)
Definition dl_init (la lb : nat) : list nat :=
  let width := la + 2 in
  let max_distance := la + lb in
  let d := repeat 0 ((la + 2) * (lb + 2)) in
  let d := put_cell d 0 max_distance in
  let d := fold_left (fun d i => put_cell (put_cell d (i + 1) max_distance) (i + 1 + width) i)
                     (seq 0 (la + 1)) d in
  fold_left (fun d j => put_cell (put_cell d ((j + 1) * width) max_distance) ((j + 1) * width + 1) j)
            (seq 0 (lb + 1)) d.

(** Body of the inner loop, for row [i] and column [j]; the state is the vector and [db] *)
Definition dl_inner (a b : list ascii) (elems : amap ascii nat) (i : nat) (st : list nat * nat) (j : nat)
  : list nat * nat :=
  let width := List.length a + 2 in
  let (d, db) := st in
  let k := match aget (elem b (j - 1)) elems with Some k => k | None => 0 end in
  let insertion_cost := cell d (j * width + i + 1) + 1 in
  let deletion_cost := cell d ((j + 1) * width + i) + 1 in
  let transposition_cost := cell d (db * width + k) + (i - k - 1) + 1 + (j - db - 1) in
  let same := eqb (elem a (i - 1)) (elem b (j - 1)) in
  let substitution_cost := cell d (j * width + i) + 1 - (if same then 1 else 0) in
  (put_cell d ((j + 1) * width + i + 1)
     (Nat.min substitution_cost (Nat.min insertion_cost (Nat.min deletion_cost transposition_cost))),
   if same then j else db).

(** Body of the outer loop; the state is the vector and the hash map *)
Definition dl_outer (a b : list ascii) (st : list nat * amap ascii nat) (i : nat)
  : list nat * amap ascii nat :=
  let (d, elems) := st in
  let (d', _) := fold_left (dl_inner a b elems i) (seq 1 (List.length b)) (d, 0) in
  (d', aset (elem a (i - 1)) i elems).

(** [generic_damerau_levenshtein] *)
Definition damerau_levenshtein (a b : list ascii) : nat :=
  match a, b with
  | [], _ => List.length b
  | _, [] => List.length a
  | _, _ =>
      let (d, _) := fold_left (dl_outer a b) (seq 1 (List.length a)) (dl_init (List.length a) (List.length b), []) in
      cell d ((List.length b + 1) * (List.length a + 2) + List.length a + 1)
  end.

(** cli.rs:506-510 the filter of [similar_help_suggestions] *)
Definition similar_names (name possible : string) : bool :=
  damerau_levenshtein (list_ascii_of_string name) (list_ascii_of_string possible) <? 3.
