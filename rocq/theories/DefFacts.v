(** Compiling one definition: everything it can report and produce. *)
From Verif Require Export TermFacts.

(** The selection set the code compiles, and the type it uses for it *)
Definition code_root (d : definition) : option (string * pos * list selection) :=
  match d with
  | DOp (OpSelectionSet _ _) => None
  | DOp (OpNamed k p _ _ _ sels) => Some (op_type_name k, p, sels)
  | DFrag f => Some (fr_cond f, fr_pos f, fr_sels f)
  end.
Lemma code_root_doc d : is_subscription d = false ->
  option_map (fun x => (fst (fst x), snd x)) (code_root d) = doc_root d.
Proof. destruct d as [[p sels|[| |] p n v ds sels]|f]; auto. discriminate. Qed.
Lemma code_root_pos d P p l : code_root d = Some (P, p, l) -> p = doc_pos d.
Proof. destruct d as [[? ?|? ? ? ? ? ?]|f]; cbn; congruence. Qed.
Lemma code_root_sels d P p l : code_root d = Some (P, p, l) -> exists Q, doc_root d = Some (Q, l).
Proof. destruct d as [[? ?|? ? ? ? ? ?]|f]; cbn; intros H; inversion H; eauto. Qed.

Definition def_name (d : definition) : string :=
  match d with
  | DOp (OpSelectionSet _ _) => ""
  | DOp (OpNamed k _ name _ _ _) => match name with Some n => n | None => op_fallback_name k end
  | DFrag f => fr_name f
  end.
Definition def_kind (d : definition) : okind :=
  match d with
  | DOp (OpSelectionSet _ _) => OKQuery
  | DOp (OpNamed k _ _ _ _ _) => okind_of_name (op_type_name k)
  | DFrag _ => OKFragment
  end.

Section Def.
  Variable cx : ctx.
  Notation s := (cx_schema cx).
  Notation frags := (cx_frags cx).
  Notation o := (cx_order cx).
  Hypothesis o_ok : order_ok o.
  Hypothesis cons_ok : consistent s.
  Notation crun := (crun s frags (cx_deprecations cx)).

  Inductive def_result (d : definition) : list warning -> res (list ir_error) operation -> Prop :=
  | dr_anonymous p l : d = DOp (OpSelectionSet p l) ->
      def_result d [] (Err [ESelectionSetAsOperationUnsupported p])
  | dr_bad_root P p l e : code_root d = Some (P, p, l) -> ~ composite s P -> bad_cond s P p e ->
      def_result d [] (Err [e])
  | dr_errors P p l ws es : code_root d = Some (P, p, l) -> composite s P -> es <> [] ->
      crun RootLocal P (possible s P) l ws es -> def_result d ws (Err es)
  | dr_vars P p l ws v : code_root d = Some (P, p, l) -> composite s P ->
      crun RootLocal P (possible s P) l ws [] -> try_build_variable_ir s (doc_vars d) = Err v ->
      def_result d ws (Err [EVariable v])
  | dr_ok P p l ws op : code_root d = Some (P, p, l) -> composite s P ->
      crun RootLocal P (possible s P) l ws [] -> try_build_variable_ir s (doc_vars d) = Ok (op_variables op) ->
      coll_shape s P (op_collection op) -> op_name op = def_name d -> op_kind op = def_kind d ->
      def_result d ws (Ok op).

  Lemma compile_result fuel d ws r : compile_definition fuel cx d = Some (ws, r) -> def_result d ws r.
  Proof.
    intros H. destruct d as [[p l|k p n vars ds sels]|f]; cbn [compile_definition build_from_operation] in H.
    - inversion H; subst. econstructor; reflexivity.
    - destruct (new_ctrav s (op_type_name k) p) as [par|e] eqn:En.
      2: { apply bad_cond_of in En. destruct En. inversion H; subst. eapply dr_bad_root; eauto. reflexivity. }
      destruct (collect fuel cx [0] sels par RootLocal) as [[[par' ws'] es']|] eqn:Ec; [|discriminate].
      destruct (collection_shape cx o_ok cons_ok _ _ [1] _ _ _ _ _ _ _ _ En Ec) as (C & R & cs & Eo & Sh).
      destruct es' as [|e es'].
      + rewrite Eo in H. destruct (try_build_variable_ir s vars) as [vs|v] eqn:Ev; inversion H; subst.
        * eapply dr_ok; eauto; reflexivity.
        * eapply dr_vars; eauto; reflexivity.
      + inversion H; subst. eapply dr_errors; eauto; [reflexivity|discriminate].
    - destruct (new_ctrav s (fr_cond f) (fr_pos f)) as [par|e] eqn:En.
      2: { apply bad_cond_of in En. destruct En. inversion H; subst. eapply dr_bad_root; eauto. reflexivity. }
      destruct (collect fuel cx [0] (fr_sels f) par RootLocal) as [[[par' ws'] es']|] eqn:Ec; [|discriminate].
      destruct (collection_shape cx o_ok cons_ok _ _ [1] _ _ _ _ _ _ _ _ En Ec) as (C & R & cs & Eo & Sh).
      destruct es' as [|e es'].
      + rewrite Eo in H. inversion H; subst. eapply dr_ok; eauto; reflexivity.
      + inversion H; subst. eapply dr_errors; eauto; [reflexivity|discriminate].
  Qed.

  (** Termination of one definition *)
  Lemma compile_some fuel d par pth P p l : code_root d = Some (P, p, l) -> new_ctrav s P p = Ok par ->
    pth = [0] -> (compile_definition fuel cx d <> None <-> collect fuel cx pth l par RootLocal <> None).
  Proof.
    intros R En ->. destruct d as [[p0 l0|k p0 n vars ds sels]|f]; cbn in R; inversion R; subst.
    - cbn [compile_definition build_from_operation]. rewrite En.
      destruct (collect fuel cx [0] l par RootLocal) as [[[par' ws'] es']|] eqn:Ec; [|tauto].
      destruct es'; [|split; discriminate]. destruct (collection_of _ _ _); [|split; discriminate].
      destruct (try_build_variable_ir _ _); split; discriminate.
    - cbn [compile_definition]. rewrite En.
      destruct (collect fuel cx [0] _ par RootLocal) as [[[par' ws'] es']|] eqn:Ec; [|tauto].
      destruct es'; [|split; discriminate]. destruct (collection_of _ _ _); split; discriminate.
  Qed.
End Def.
