(** C10: deprecation warnings are exact. *)
From Verif Require Import DefFacts SelWorlds.

Theorem C10 : forall fuel cx d ws op P l,
  order_ok (cx_order cx) -> consistent (cx_schema cx) ->
  compile_definition fuel cx d = Some (ws, Ok op) ->
  doc_root d = Some (P, l) -> is_subscription d = false ->
  filter is_depr ws =
    if cx_deprecations cx
    then List.map (fun x => WDeprecatedFieldUse (fst (fst x)) (snd (fst x)) (snd x)) (flat_map (deprecated_uses (cx_schema cx) P) l)
    else [].
Proof.
  intros fuel cx d ws op P l O Co H Dr Su. pose proof (code_root_doc d Su) as E.
  apply compile_result in H; auto. inversion H as [| | | |Q q m ws0 op0 R C X V]; subst.
  rewrite R in E. cbn in E. rewrite Dr in E. inversion E; subst.
  destruct (run_depr (cx_schema cx) (cx_frags cx) (cx_deprecations cx)) as (_ & _ & Y).
  destruct (Y _ _ _ _ _ _ X) as [_ Z]. rewrite (Z eq_refl eq_refl). unfold depr_list.
  destruct (cx_deprecations cx); auto. apply map_ext. intros [[? ?] ?]. reflexivity.
Qed.
Print Assumptions C10.

(** Off: none, whatever the result *)
Theorem C10_off : forall fuel cx d ws r,
  order_ok (cx_order cx) -> consistent (cx_schema cx) ->
  compile_definition fuel cx d = Some (ws, r) -> cx_deprecations cx = false -> filter is_depr ws = [].
Proof.
  intros fuel cx d ws r O Co H D. apply compile_result in H; auto.
  assert (Y : (forall js P K x ws es, srun (cx_schema cx) (cx_frags cx) (cx_deprecations cx) js P K x ws es -> filter is_depr ws = []) /\
    (forall js K c p sub ws es, prun (cx_schema cx) (cx_frags cx) (cx_deprecations cx) js K c p sub ws es -> filter is_depr ws = []) /\
    (forall js P K l ws es, crun (cx_schema cx) (cx_frags cx) (cx_deprecations cx) js P K l ws es -> filter is_depr ws = [])).
  { rewrite D. apply run_mutind; intros; rewrite ?filter_app, ?filter_depr_of;
      repeat match goal with X : filter is_depr _ = [] |- _ => rewrite X end; auto.
    all: try (erewrite narrow_warn_depr by eassumption; auto). }
  destruct Y as (_ & _ & Y).
  inversion H as [q l|P q l e0 R C B|P q l ws0 es R C Ne X|P q l ws0 v R C X V|P q l ws0 op R C X V]; subst; auto; eapply Y; eauto.
Qed.
Print Assumptions C10_off.

(** Non-vacuity: two local uses, one of them nested, and one in an imported fragment *)
Definition C10_doc : definition :=
  query [leaf 2 "old"; node 3 "me" [leaf 4 "age"; spread 5 "F"; leaf 6 "name"]; on 7 "Query" [leaf 8 "old"]].
Example C10_nonvacuous : exists ws op,
  compile_definition 10 (zoo_cx true [frag "F" "User" [leaf 91 "age"]]) C10_doc = Some (ws, Ok op) /\
  ws = [WDeprecatedFieldUse (at_pos 2 3) "old" "Query"; WDeprecatedFieldUse (at_pos 4 3) "age" "User";
        WDeprecatedFieldUse (at_pos 8 3) "old" "Query"].
Proof. eexists _, _. split; vm_compute; reflexivity. Qed.
