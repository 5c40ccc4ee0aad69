(** Specification side: the place in a document where a fragment is spread, and the values at that place. *)
From Verif Require Export SpecPart SpecReg.

(** The objects at a path of keys, in all items of the lists on the way *)
Inductive at_path : list string -> value -> value -> Prop :=
| at_end kvs : at_path [] (VObj kvs) (VObj kvs)
| at_key k path kvs x y w : aget k kvs = Some x -> item_of x y -> at_path path y w -> at_path (k :: path) (VObj kvs) w.

Section Places.
  Variable s : schema.
  Variable frags : amap string fragdef.

  (** [M] spreads the fragment [name] for objects of type [T], directives aside *)
  Inductive spread_for (name : string) (T : string) : selset -> fragdef -> Prop :=
  | for_here (M : selset) p d fd : M (SSpread p name d) -> aget name frags = Some fd -> possible s (fr_cond fd) T -> spread_for name T M fd
  | for_inline (M : selset) p c d sub fd : M (SInline p (Some c) d sub) -> possible s c T ->
      spread_for name T (fun x => In x sub) fd -> spread_for name T M fd
  | for_spread (M : selset) p other d od fd : M (SSpread p other d) -> aget other frags = Some od ->
      possible s (fr_cond od) T -> spread_for name T (fun x => In x (fr_sels od)) fd -> spread_for name T M fd.

  (** At the path below [M], written at type [P], the fragment is spread for every object type an object there can have *)
  Inductive spread_along (name : string) : string -> selset -> list string -> Prop :=
  | along_end P M : (forall T, possible s P T -> exists fd, spread_for name T M fd) -> spread_along name P M []
  | along_key P M k path :
      (forall T, possible s P T -> exists f ss, focc s frags T P M k f ss /\ composite s (ft_name (sf_type f)) /\
         spread_along name (ft_name (sf_type f)) (merged (focc s frags T P M) k (ft_name (sf_type f))) path) ->
      spread_along name P M (k :: path).
End Places.
