(** Compiled documents: from the document to the collected fields. *)
From Verif Require Export Written DescFacts SpecDiag.

(** *** More fuel changes nothing *)
Definition refines (r r' : collector) : Prop := forall p l par js x, r p l par js = Some x -> r' p l par js = Some x.

Lemma insert_field_mono r r' cx pth p al n sub tr js x : refines r r' ->
  insert_field r cx pth p al n sub tr js = Some x -> insert_field r' cx pth p al n sub tr js = Some x.
Proof.
  intros H. unfold insert_field. destruct (aget n (ct_lookup tr)) as [f|]; auto.
  destruct sub as [|y sub]; destruct (fdef_is_complex _); auto.
  destruct (new_ctrav _ _ _) as [sp|]; auto.
  destruct (r (2 :: pth) (y :: sub) sp js) as [[[sp' ws] es]|] eqn:E; [|discriminate].
  rewrite (H _ _ _ _ _ E). auto.
Qed.
Lemma spread_into_mono r r' cx pth tn p sub par njs x : refines r r' ->
  spread_into r cx pth tn p sub par njs = Some x -> spread_into r' cx pth tn p sub par njs = Some x.
Proof.
  intros H. unfold spread_into. destruct (clone_for_type_spread _ _ _ _ _ _) as [[sp ws]|]; auto.
  destruct (r (1 :: pth) sub sp njs) as [[[sp' ws'] es]|] eqn:E; [|discriminate]. rewrite (H _ _ _ _ _ E). auto.
Qed.
Lemma collect_loop_mono r r' cx pth : refines r r' -> forall l i par js ws es x,
  collect_loop r cx pth i l par js ws es = Some x -> collect_loop r' cx pth i l par js ws es = Some x.
Proof.
  intros H l. induction l as [|y l IH]; intros i par js ws es x; cbn [collect_loop]; auto.
  destruct y as [p al n a d sub|p n d|p [tn|] d sub].
  - destruct (insert_field r cx (i :: pth) p al n sub par js) as [[[par' ws'] es']|] eqn:E; [|discriminate].
    rewrite (insert_field_mono _ _ _ _ _ _ _ _ _ _ _ H E). cbn [option_map]. apply IH.
  - destruct (aget n (cx_frags cx)) as [f|]; [|apply IH].
    destruct (spread_into r cx (i :: pth) (fr_cond f) p (fr_sels f) par (jump_foreign js)) as [y|] eqn:E; [|discriminate].
    rewrite (spread_into_mono _ _ _ _ _ _ _ _ _ _ H E). destruct y as [[[? ?] ?]|[[? ?] ?]]; auto.
  - destruct (spread_into r cx (i :: pth) tn p sub par (jump_inline js)) as [y|] eqn:E; [|discriminate].
    rewrite (spread_into_mono _ _ _ _ _ _ _ _ _ _ H E). destruct y as [[[? ?] ?]|[[? ?] ?]]; auto.
  - apply IH.
Qed.
Lemma collect_mono cx n : forall m, n <= m -> refines (collect n cx) (collect m cx).
Proof.
  induction n as [|n IH]; intros m L p l par js x; [discriminate|]. destruct m as [|m]; [lia|].
  cbn [collect]. apply collect_loop_mono. apply IH. lia.
Qed.
Lemma compile_definition_mono cx d n m r : n <= m ->
  compile_definition n cx d = Some r -> compile_definition m cx d = Some r.
Proof.
  intros L. destruct d as [[p l|k p nm vs di l]|f]; cbn [compile_definition build_from_operation]; auto;
    (destruct (new_ctrav _ _ _) as [par|]; auto).
  - destruct (collect n cx [0] l par RootLocal) as [[[par' ws] es]|] eqn:E; [|discriminate].
    rewrite (collect_mono cx n m L _ _ _ _ _ E). auto.
  - destruct (collect n cx [0] (fr_sels f) par RootLocal) as [[[par' ws] es]|] eqn:E; [|discriminate].
    rewrite (collect_mono cx n m L _ _ _ _ _ E). auto.
Qed.

(** *** A document without errors is valid when the fragments it spreads are *)
Definition frags_valid (s : schema) (frags : amap string fragdef) (l : list selection) : Prop :=
  forall n fd, spreads l n -> aget n frags = Some fd ->
    composite s (fr_cond fd) /\ valid_sels s frags (fr_cond fd) (fr_sels fd).

Section Valid.
  Variable s : schema.
  Variable frags : amap string fragdef.
  Variable dep : bool.

  Lemma run_valid :
    (forall js P K x ws es, srun s frags dep js P K x ws es -> js = RootLocal -> es = [] ->
       frags_valid s frags [x] -> valid_sel s frags P x) /\
    (forall js K c p l ws es, prun s frags dep js K c p l ws es -> js = RootLocal -> es = [] ->
       frags_valid s frags l -> composite s c /\ valid_sels s frags c l) /\
    (forall js P K l ws es, crun s frags dep js P K l ws es -> js = RootLocal -> es = [] ->
       frags_valid s frags l -> valid_sels s frags P l).
  Proof.
    apply (run_mutind s frags dep
      (fun js P K x ws es => js = RootLocal -> es = [] -> frags_valid s frags [x] -> valid_sel s frags P x)
      (fun js K c p l ws es => js = RootLocal -> es = [] -> frags_valid s frags l -> composite s c /\ valid_sels s frags c l)
      (fun js P K l ws es => js = RootLocal -> es = [] -> frags_valid s frags l -> valid_sels s frags P l));
      try discriminate.
    - intros js P K p al n a d f F C Ej _ V. econstructor; eauto.
    - intros js P K p al n a d f x sub ws F C _ IH Ej _ V. eapply valid_composite; eauto; [discriminate|].
      apply IH; auto. intros m fd Sp. apply V. eapply spr_field; [left; reflexivity|auto].
    - intros js P K p c d sub ws es _ IH -> Ee V. destruct IH as [C Vs]; auto; [|constructor; auto].
      intros m fd Sp. apply V. eapply spr_inline; [left; reflexivity|auto].
    - intros js P K p n d fd ws es Fd _ _ _ _ V. destruct (V n fd) as [C Vs]; auto.
      { eapply spr_here. left. reflexivity. } econstructor; eauto.
    - intros js K c p sub e C B -> Ee V. discriminate.
    - intros js K c p sub w0 ws es C Nw _ IH -> Ee V. cbn [is_local] in Ee. auto.
    - intros js P K _ _ _. constructor.
    - intros js P K x l ws es ws' es' _ IH _ IH' Ej Ee V. apply app_eq_nil in Ee. destruct Ee as [-> ->].
      constructor; [apply IH|apply IH']; auto; intros m fd Sp; apply V.
      + inversion Sp as [? p n d I|? p al n a d sub ? I S|? p cc d sub ? I S]; subst; cbn in I; destruct I as [->|[]];
          [eapply spr_here|eapply spr_field|eapply spr_inline]; try (left; reflexivity); auto.
      + inversion Sp as [? p n d I|? p al n a d sub ? I S|? p cc d sub ? I S]; subst;
          [eapply spr_here|eapply spr_field|eapply spr_inline]; try (right; eassumption); auto.
  Qed.
End Valid.

(** *** What a successful compilation has collected *)
Lemma document_collected fuel cx d ws op P l :
  order_ok (cx_order cx) -> consistent (cx_schema cx) ->
  compile_definition fuel cx d = Some (ws, Ok op) ->
  doc_root d = Some (P, l) -> is_subscription d = false ->
  frags_valid (cx_schema cx) (cx_frags cx) l ->
  valid_sels (cx_schema cx) (cx_frags cx) P l /\
  coll_ok (cx_schema cx) (cx_frags cx) P (fun x => In x l) (op_collection op).
Proof.
  intros O Co Hd Dr Su Fv.
  pose proof (compile_result cx O Co _ _ _ _ Hd) as R.
  inversion R as [| | | |P0 p l0 ws0 op0 Rt C X Ev Sh En Ek]; subst.
  pose proof (code_root_doc d Su) as E. rewrite Rt, Dr in E. cbn in E. injection E as -> ->.
  assert (V : valid_sels (cx_schema cx) (cx_frags cx) P l).
  { destruct (run_valid (cx_schema cx) (cx_frags cx) (cx_deprecations cx)) as (_ & _ & H). eapply H; eauto. }
  split; auto.
  destruct (collection_valid cx O Co P l p C V) as [n Hn].
  destruct (Hn (Nat.max n fuel) (Nat.le_max_l _ _) [0] [1] RootLocal) as (par & Ep & par' & ws' & cs & Ec & Eo & K).
  apply (compile_definition_mono _ _ _ (Nat.max n fuel) _ (Nat.le_max_r _ _)) in Hd.
  destruct d as [[? ?|k q nm vars dirs sels]|f]; cbn in Rt; inversion Rt; subst; cbn [compile_definition build_from_operation] in Hd.
  - rewrite Ep, Ec, Eo in Hd. destruct (try_build_variable_ir _ _); [|discriminate]. injection Hd as _ <-. exact K.
  - rewrite Ep, Ec, Eo in Hd. injection Hd as _ <-. exact K.
Qed.

(** Everything known about the module of a document: its declarations [ds] for the selections and
    [vds] for the variables, its text, and that the selections are described by the declarations *)
Lemma document_described fuel cx c o d ws co P l :
  order_ok (cx_order cx) -> order_ok o -> consistent (cx_schema cx) -> proper_types (cx_schema cx) ->
  document_file fuel cx c o d ws co -> doc_root d = Some (P, l) -> is_subscription d = false ->
  frags_valid (cx_schema cx) (cx_frags cx) l ->
  exists op ds us vds vus,
    compile_definition fuel cx d = Some (ws, Ok op) /\
    valid_sels (cx_schema cx) (cx_frags cx) P l /\ composite (cx_schema cx) P /\
    coll_ok (cx_schema cx) (cx_frags cx) P (fun x => In x l) (op_collection op) /\
    op_name op = def_name d /\ op_kind op = def_kind d /\
    try_build_variable_ir (cx_schema cx) (doc_vars d) = Ok (op_variables op) /\
    rnd_coll c (op_collection op) (def_name d) ds us /\ r_variables c (cx_schema cx) op = Ok (vds, vus) /\
    co_globals co = sunion [] (us ++ vus) /\
    written_as cx c d co (file_of c op (ds ++ vds) (co_globals co)) /\
    (regular (cx_schema cx) (cx_frags cx) P (fun x => In x l) -> forall D, incl ds D ->
     des c (cx_schema cx) (cx_frags cx) D P (fun x => In x l) (def_name d)).
Proof.
  intros O O' Co Pt H Dr Su Fv. destruct (document_inv _ _ _ _ _ _ _ O O' Co H)
    as (P0 & p & l0 & op & ds & us & vds & vus & Rt & C & Hd & En & Ek & Ev & Sh & Rn & Rv & Eg & Ec).
  pose proof (code_root_doc d Su) as E. rewrite Rt, Dr in E. cbn in E. injection E as -> ->.
  destruct (document_collected _ _ _ _ _ _ _ O Co Hd Dr Su Fv) as [V K].
  exists op, ds, us, vds, vus. repeat match goal with |- _ /\ _ => split end; auto. intros R D I.
  destruct (rnd_desc c (cx_schema cx) (cx_frags cx) Pt Co) as (_ & _ & _ & X). eapply X; eauto.
Qed.
