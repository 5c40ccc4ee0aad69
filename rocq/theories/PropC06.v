(** C06: every invalid selection of the document itself is reported and rejects the file. *)
From Verif Require Import DefFacts Graphql GraphqlFacts SelWorlds.

(** An invalid selection yields an error that describes it, with its position *)
Theorem C06_reported : forall fuel cx d ws r P l P' x,
  order_ok (cx_order cx) -> consistent (cx_schema cx) ->
  compile_definition fuel cx d = Some (ws, r) ->
  doc_root d = Some (P, l) -> is_subscription d = false -> composite (cx_schema cx) P ->
  within (cx_schema cx) P l P' x -> bad_selection (cx_schema cx) (cx_frags cx) P' x ->
  exists errs e, r = Err errs /\ In e errs /\ complaint (cx_schema cx) (cx_frags cx) P' x e.
Proof.
  intros fuel cx d ws r P l P' x O Co H Dr Su C W B. pose proof (code_root_doc d Su) as E.
  apply compile_result in H; auto. inversion H; subst; try match goal with X : code_root _ = _ |- _ => rewrite X in E; cbn in E end.
  - discriminate.
  - rewrite Dr in E. inversion E; subst. contradiction.
  - rewrite Dr in E. inversion E; subst.
    match goal with R : crun _ _ _ _ _ _ _ _ _ |- _ => rename R into R0 end.
    destruct (run_errors_complete _ _ _ _ _ _ _ W _ _ _ R0 B) as (e & I & Ce).
    eauto.
  - rewrite Dr in E. inversion E; subst.
    match goal with R : crun _ _ _ _ _ _ _ _ _ |- _ => rename R into R0 end.
    destruct (run_errors_complete _ _ _ _ _ _ _ W _ _ _ R0 B) as (e & [] & Ce).
  - rewrite Dr in E. inversion E; subst.
    match goal with R : crun _ _ _ _ _ _ _ _ _ |- _ => rename R into R0 end.
    destruct (run_errors_complete _ _ _ _ _ _ _ W _ _ _ R0 B) as (e & [] & Ce).
Qed.
Print Assumptions C06_reported.

(** If it compiles, no invalid selection occurs in it (also: the root type is composite) *)
Theorem C06_accepted : forall fuel cx d ws op P l,
  order_ok (cx_order cx) -> consistent (cx_schema cx) ->
  compile_definition fuel cx d = Some (ws, Ok op) ->
  doc_root d = Some (P, l) -> is_subscription d = false ->
  composite (cx_schema cx) P /\
  forall P' x, within (cx_schema cx) P l P' x -> ~ bad_selection (cx_schema cx) (cx_frags cx) P' x.
Proof.
  intros fuel cx d ws op P l O Co H Dr Su. pose proof (code_root_doc d Su) as E.
  assert (C : composite (cx_schema cx) P).
  { apply compile_result in H; auto. inversion H; subst. rewrite H1 in E. cbn in E. rewrite Dr in E. inversion E; subst. auto. }
  split; auto. intros P' x W B.
  destruct (C06_reported _ _ _ _ _ _ _ _ _ O Co H Dr Su C W B) as (errs & e & F & _). discriminate.
Qed.
Print Assumptions C06_accepted.

(** And nothing else is reported: every error is about an invalid selection of the document, its
    root type, its variables, or its being an anonymous selection set *)
Theorem C06_only : forall fuel cx d ws errs,
  order_ok (cx_order cx) -> consistent (cx_schema cx) ->
  compile_definition fuel cx d = Some (ws, Err errs) -> is_subscription d = false ->
  errs <> [] /\
  ((exists p l, d = DOp (OpSelectionSet p l) /\ errs = [ESelectionSetAsOperationUnsupported p]) \/
   (exists P l e, doc_root d = Some (P, l) /\ errs = [e] /\ ~ composite (cx_schema cx) P) \/
   (exists P l, doc_root d = Some (P, l) /\ forall e, In e errs -> exists P' x,
      within (cx_schema cx) P l P' x /\ complaint (cx_schema cx) (cx_frags cx) P' x e /\
      bad_selection (cx_schema cx) (cx_frags cx) P' x) \/
   (exists v, errs = [EVariable v] /\ try_build_variable_ir (cx_schema cx) (doc_vars d) = Err v)).
Proof.
  intros fuel cx d ws errs O Co H Su. pose proof (code_root_doc d Su) as E.
  apply compile_result in H; auto. inversion H; subst; try match goal with X : code_root _ = _ |- _ => rewrite X in E; cbn in E end.
  - split; [discriminate|]. left. eexists _, _. split; reflexivity.
  - split; [discriminate|]. right. left. eexists _, _, _. split; [symmetry; exact E|]. split; [reflexivity|auto].
  - split; [auto|]. right. right. left. eexists _, _. split; [symmetry; exact E|]. intros e I.
    destruct (run_errors_sound (cx_schema cx) (cx_frags cx) (cx_deprecations cx)) as (_ & _ & X).
    match goal with R : crun _ _ _ _ _ _ _ _ _ |- _ => rename R into R0 end.
    destruct (X _ _ _ _ _ _ R0 eq_refl e I) as (P' & y & W & Ce). exists P', y. split; [auto|]. split; [auto|].
    eapply complaint_bad; eauto.
  - split; [discriminate|]. right. right. right. eexists. split; [reflexivity|auto].
Qed.
Print Assumptions C06_only.

(** Whole files: nothing is written and the messages contain the complaint *)
Theorem C06_file : forall fuel e f c s path f' r contents d im ms0 P l P' x,
  (forall p, order_ok (env_order e p)) -> consistent s ->
  compile_file fuel e f c s path = Done (f', r) ->
  read_file e f path = Ok contents -> parse_file e contents path = Ok d ->
  add_imports fuel e f c path contents [] [] = Done (im, ms0) ->
  doc_root d = Some (P, l) -> is_subscription d = false -> composite s P ->
  let frags := fst (parse_foreign e path im ms0) in
  within s P l P' x -> bad_selection s frags P' x ->
  f' = f /\ exists ms er, r = Err ms /\ complaint s frags P' x er /\
    In (ir_error_message (env_similar e) contents path er) ms.
Proof.
  intros fuel e f c s path f' r contents d im ms0 P l P' x O Co H Er Ep Ei Dr Su C frags W B.
  unfold compile_file in H. rewrite Er, Ep, Ei in H. subst frags.
  destruct (parse_foreign e path im ms0) as [frags ms1]. cbn [fst] in *.
  set (cx := {| cx_schema := s; cx_deprecations := cc_deprecations c; cx_frags := frags;
                cx_order := suborder (env_order e path) [1; 0] |}) in *.
  destruct (compile_definition fuel cx d) as [[ws r1]|] eqn:Ec; [|discriminate].
  assert (Oc : order_ok (cx_order cx)). { intros q A k. apply O. }
  destruct (C06_reported fuel cx d ws r1 P l P' x Oc Co Ec Dr Su C W B) as (errs & er & -> & I & Ce).
  inversion H; subst. split; auto. eexists _, er. split; [reflexivity|]. split; auto.
  apply in_or_app. right. apply in_or_app. left. apply in_map. auto.
Qed.
Print Assumptions C06_file.

(** Subscriptions: the code looks their fields up in the type Query instead *)
Theorem C06_subscription_refuted : exists fuel cx d ws op P l x,
  order_ok (cx_order cx) /\ consistent (cx_schema cx) /\
  compile_definition fuel cx d = Some (ws, Ok op) /\ doc_root d = Some (P, l) /\ is_subscription d = true /\
  within (cx_schema cx) P l P x /\ bad_selection (cx_schema cx) (cx_frags cx) P x.
Proof.
  exists 5, (zoo_cx false []), (DOp (OpNamed KSubscription p0 (Some "S") [] [] [leaf 2 "color"])).
  eexists _, _, _, _, (leaf 2 "color").
  split; [apply plain_ok|]. split; [apply zoo_consistent|]. split; [vm_compute; reflexivity|].
  split; [reflexivity|]. split; [reflexivity|]. split; [apply wi_here; left; reflexivity|].
  apply bad_unknown_field. intros f (t & E & F). vm_compute in E. inversion E; subst. cbn in F. discriminate.
Qed.
Print Assumptions C06_subscription_refuted.

(** Non-vacuity: query { me { ... on User { pets { wings } } } } selects an unknown field three
    levels down *)
Definition C06_doc : definition := query [node 2 "me" [on 3 "User" [node 4 "pets" [leaf 5 "wings"]]]].
Example C06_nonvacuous :
  within zoo "Query" [node 2 "me" [on 3 "User" [node 4 "pets" [leaf 5 "wings"]]]] "Pet" (leaf 5 "wings") /\
  bad_selection zoo [] "Pet" (leaf 5 "wings") /\ composite zoo "Query" /\
  exists ws errs, compile_definition 10 (zoo_cx false []) C06_doc = Some (ws, Err errs).
Proof.
  assert (F1 : exists f, field_of zoo "Query" "me" f /\ ft_name (sf_type f) = "User").
  { eexists. split; [eexists; split; [vm_compute; reflexivity|vm_compute; reflexivity]|reflexivity]. }
  assert (F2 : exists f, field_of zoo "User" "pets" f /\ ft_name (sf_type f) = "Pet").
  { eexists. split; [eexists; split; [vm_compute; reflexivity|vm_compute; reflexivity]|reflexivity]. }
  destruct F1 as (f1 & F1 & E1). destruct F2 as (f2 & F2 & E2).
  split; [|split; [|split]].
  - eapply wi_field; [left; reflexivity|exact F1| |]; rewrite E1; [apply compositeb_ok; reflexivity|].
    eapply wi_inline; [left; reflexivity|apply compositeb_ok; reflexivity|].
    eapply wi_field; [left; reflexivity|exact F2| |]; rewrite E2; [apply compositeb_ok; reflexivity|].
    apply wi_here. left; reflexivity.
  - apply bad_unknown_field. intros f (t & E & F). vm_compute in E. inversion E; subst. cbn in F. discriminate.
  - apply compositeb_ok. reflexivity.
  - eexists _, _. vm_compute. reflexivity.
Qed.
