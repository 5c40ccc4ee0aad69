(** Specification side: the parts of a response where a fragment is spread.  In terms of GraphQL execution only. *)
From Verif Require Export SpecResp.

(** An item of a list, at any depth, or the value itself *)
Inductive item_of : value -> value -> Prop :=
| item_here x : item_of x x
| item_in l x y : In x l -> item_of x y -> item_of (VList l) y.

Section Parts.
  Variable js : jschema.
  Variable s : schema.
  Variable frags : amap string fragdef.
  Variable active : list directive -> Prop.
  Variable custom : string -> value -> Prop.

  (** What is selected below the key [k] of an object of type [T] *)
  Definition picked_below (T : string) (M : selset) (k : string) : selset :=
    fun z => exists fld ss, collects s frags active T M k fld ss /\ In z ss.

  (** Executing [M] for an object of type [T] executes the fragment [name], spread in it or in fragments that are
      executed as well *)
  Inductive applied (name : string) (T : string) : selset -> fragdef -> Prop :=
  | app_here (M : selset) p d fd : M (SSpread p name d) -> active d -> aget name frags = Some fd -> possible s (fr_cond fd) T ->
      applied name T M fd
  | app_inline (M : selset) p c d sub fd : M (SInline p c d sub) -> active d ->
      match c with Some c => possible s c T | None => True end ->
      applied name T (fun x => In x sub) fd -> applied name T M fd
  | app_spread (M : selset) p other d od fd : M (SSpread p other d) -> active d -> aget other frags = Some od ->
      possible s (fr_cond od) T -> applied name T (fun x => In x (fr_sels od)) fd -> applied name T M fd.

  (** [w] is an object of the response [v], to [M] and of type [T], for which the fragment is executed *)
  Inductive spread_at (name : string) : string -> selset -> value -> value -> Prop :=
  | sp_here T M v fd : applied name T M fd -> spread_at name T M v v
  | sp_below T M kvs k fld ss kind g x y T' n w : In (k, x) kvs -> collects s frags active T M k fld ss ->
      declared js T fld kind g -> item_of x y -> possible s (gbase g) T' ->
      object_response js s frags active custom n T' (picked_below T M k) y ->
      spread_at name T' (picked_below T M k) y w -> spread_at name T M (VObj kvs) w.

  (** No key of an object stands for two fields (GraphQL spec 5.3.2, for fields of one object type), at any depth *)
  Inductive unmixed : string -> selset -> Prop :=
  | unmixed_intro T M :
      (forall k fld ss fld' ss', collects s frags active T M k fld ss -> collects s frags active T M k fld' ss' -> fld = fld') ->
      (forall k fld ss kind g T', collects s frags active T M k fld ss -> declared js T fld kind g -> possible s (gbase g) T' ->
         unmixed T' (picked_below T M k)) ->
      unmixed T M.
End Parts.
