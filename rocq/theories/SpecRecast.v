(** Specification side: two requests, each with fragments of its own, that differ in how they are written down:
    in the names of fragments, in what is a fragment of its own and what is written inline, in the order of
    selections, in arguments and directives. *)
From Verif Require Export SpecSel.

(** The type condition and the selections that [x] stands for *)
Inductive narrows (frags : amap string fragdef) : selection -> string -> list selection -> Prop :=
| nw_inline p c d sub : narrows frags (SInline p (Some c) d sub) c sub
| nw_spread p name d fd : aget name frags = Some fd -> narrows frags (SSpread p name d) (fr_cond fd) (fr_sels fd).

(** [x] with the fragments [fr] is written as [x'] with the fragments [fr'] *)
Inductive recast (fr fr' : amap string fragdef) : selection -> selection -> Prop :=
| rc_field p al n a d sub p' al' a' d' sub' :
    response_key al n = response_key al' n -> recasts fr fr' sub sub' ->
    recast fr fr' (SField p al n a d sub) (SField p' al' n a' d' sub')
| rc_narrow x x' c l l' : narrows fr x c l -> narrows fr' x' c l' -> recasts fr fr' l l' -> recast fr fr' x x'
with recasts (fr fr' : amap string fragdef) : list selection -> list selection -> Prop :=
| rc_nil : recasts fr fr' [] []
| rc_cons x x' l l' : recast fr fr' x x' -> recasts fr fr' l l' -> recasts fr fr' (x :: l) (x' :: l')
| rc_set l l' l'' : recasts fr fr' l l' -> (forall x, In x l' <-> In x l'') -> recasts fr fr' l l''.

(** Variables with the same names and types *)
Definition same_vars : list vardef -> list vardef -> Prop :=
  Forall2 (fun v v' => vd_name v = vd_name v' /\ vd_type v = vd_type v').

(** Documents that agree in everything but their selections *)
Definition same_head (d d' : definition) : Prop :=
  match d, d' with
  | DOp (OpSelectionSet _ _), DOp (OpSelectionSet _ _) => True
  | DOp (OpNamed k _ n vs _ _), DOp (OpNamed k' _ n' vs' _ _) => k = k' /\ n = n' /\ same_vars vs vs'
  | DFrag f, DFrag f' => fr_name f = fr_name f' /\ fr_cond f = fr_cond f'
  | _, _ => False
  end.

(** The selections [M] with the fragments [fr], and [M'] with [fr'], collect for every object type and at every depth
    the same keys, with fields related by [R] *)
Inductive collects_same (s : schema) (fr fr' : amap string fragdef) (R : sfield -> sfield -> Prop) : string -> selset -> selset -> Prop :=
| collects_intro P (M M' : selset) :
    (forall T k f ss, possible s P T -> focc s fr T P M k f ss -> exists f' ss', focc s fr' T P M' k f' ss' /\ R f f') ->
    (forall T k f' ss', possible s P T -> focc s fr' T P M' k f' ss' -> exists f ss, focc s fr T P M k f ss /\ R f f') ->
    (forall T k f ss, possible s P T -> focc s fr T P M k f ss -> composite s (ft_name (sf_type f)) ->
       collects_same s fr fr' R (ft_name (sf_type f)) (merged (focc s fr T P M) k (ft_name (sf_type f)))
         (merged (focc s fr' T P M') k (ft_name (sf_type f)))) ->
    collects_same s fr fr' R P M M'.

(** Fragments under other names, and in another map *)
Fixpoint rename_sel (g : string -> string) (x : selection) : selection :=
  match x with
  | SField p al n a d sub => SField p al n a d (List.map (rename_sel g) sub)
  | SSpread p n d => SSpread p (g n) d
  | SInline p c d sub => SInline p c d (List.map (rename_sel g) sub)
  end.
Definition renamed_frags (g : string -> string) (fr fr' : amap string fragdef) : Prop :=
  forall n fd, aget n fr = Some fd -> exists fd', aget (g n) fr' = Some fd' /\
    fr_cond fd' = fr_cond fd /\ fr_sels fd' = List.map (rename_sel g) (fr_sels fd).
