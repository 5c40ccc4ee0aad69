(** C09: every positioned diagnostic points into the compiled file. *)
From Verif Require Import DefFacts SelWorlds.

Lemma variable_error_pos s vars v : try_build_variable_ir s vars = Err v ->
  exists vd, In vd vars /\ error_pos (EVariable v) = Some (vd_pos vd).
Proof.
  unfold try_build_variable_ir. destruct vars as [|vd0 vars0]; [discriminate|].
  remember (vd0 :: vars0) as vars eqn:E0. clear E0 vd0 vars0. intros H.
  destruct (collect_res (List.map (build_variable s) vars)) as [vs|e] eqn:E; inversion H; subst e. clear H.
  revert E. induction vars as [|vd vars IH]; [discriminate|]. cbn [List.map collect_res].
  destruct (build_variable s vd) as [b|e] eqn:Eb.
  - destruct (collect_res (List.map (build_variable s) vars)) as [vs|e]; intros H; inversion H; subst.
    destruct (IH eq_refl) as (w & I & P). exists w. split; [right; auto|auto].
  - intros H. inversion H; subst. exists vd. split; [left; auto|]. unfold build_variable in Eb.
    destruct (unwrap_var_def vd) as [[m g]|e] eqn:Eu.
    + unfold vtype_of_name in Eb. 
      repeat match type of Eb with context [String.eqb g ?n] => destruct (String.eqb g n); [discriminate|] end.
      destruct (get_type s g); [discriminate|]. inversion Eb; subst. reflexivity.
    + inversion Eb; subst. unfold unwrap_var_def in Eu.
      destruct (vd_type vd) as [n|[n|[n|t|t]|t]|[n|t|[n|t|t]]]; try discriminate;
        repeat match type of Eu with context [match ?x with _ => _ end] => destruct x end; inversion Eu; subst; reflexivity.
Qed.

(** Errors *)
Theorem C09_errors : forall fuel cx d ws errs e p,
  order_ok (cx_order cx) -> consistent (cx_schema cx) ->
  compile_definition fuel cx d = Some (ws, Err errs) -> In e errs -> error_pos e = Some p -> position_in d p.
Proof.
  intros fuel cx d ws errs e p O Co H I N. apply compile_result in H; auto.
  inversion H as [q l|P q l e0 R C B|P q l ws0 es R C Ne X|P q l ws0 v R C X V|]; subst.
  - destruct I as [<-|[]]. inversion N; subst. apply (pi_def (DOp (OpSelectionSet p l))).
  - destruct I as [<-|[]]. inversion B; subst; cbn in N; inversion N; subst.
    rewrite (code_root_pos _ _ _ _ R). apply pi_def.
  - destruct (run_errors_sound (cx_schema cx) (cx_frags cx) (cx_deprecations cx)) as (_ & _ & Y).
    destruct (Y _ _ _ _ _ _ X eq_refl e I) as (P' & y & W & Ce).
    apply within_written in W. destruct (code_root_sels _ _ _ _ R) as (Q & Dr).
    assert (E : p = sel_pos y). { inversion Ce; subst; cbn in N; inversion N; reflexivity. }
    rewrite E. eapply pi_sel; eauto.
  - destruct I as [<-|[]]. destruct (variable_error_pos _ _ _ V) as (vd & Iv & Ev).
    rewrite Ev in N. inversion N; subst. apply pi_var. auto.
Qed.
Print Assumptions C09_errors.

(** Warnings *)
Theorem C09_warnings : forall fuel cx d ws r w,
  order_ok (cx_order cx) -> consistent (cx_schema cx) ->
  compile_definition fuel cx d = Some (ws, r) -> In w ws -> position_in d (warning_pos w).
Proof.
  intros fuel cx d ws r w O Co H I. apply compile_result in H; auto.
  destruct (run_warning_pos (cx_schema cx) (cx_frags cx) (cx_deprecations cx)) as (_ & _ & Y).
  inversion H as [q l|P q l e0 R C B|P q l ws0 es R C Ne X|P q l ws0 v R C X V|P q l ws0 op R C X V]; subst; try (destruct I; fail);
    destruct (Y _ _ _ _ _ _ X eq_refl w I) as (y & W & ->); destruct (code_root_sels _ _ _ _ R) as (Q & Dr);
    eapply pi_sel; eauto.
Qed.
Print Assumptions C09_warnings.

(** Non-vacuity: an imported fragment that is itself full of errors and deprecated fields gives no
    diagnostics; the local selections around it do *)
Definition C09_frags : list fragdef :=
  [frag "F" "User" [leaf 91 "age"; leaf 92 "nope"; on 93 "Bird" [leaf 94 "name"]]].
Definition C09_doc : definition := query [node 2 "me" [spread 3 "F"; leaf 4 "age"; leaf 5 "nope"; on 6 "Dog" [leaf 7 "name"]]].
Example C09_nonvacuous : exists ws errs,
  compile_definition 10 (zoo_cx true C09_frags) C09_doc = Some (ws, Err errs) /\
  List.map error_pos errs = [Some (at_pos 5 3)] /\ List.map warning_pos ws = [at_pos 4 3; at_pos 6 3].
Proof. eexists _, _. split; [vm_compute; reflexivity|]. split; reflexivity. Qed.
Example C09_variable : exists ws errs,
  compile_definition 10 (zoo_cx true [])
    (DOp (OpNamed KQuery p0 None [{| vd_pos := at_pos 1 9; vd_name := "v"; vd_type := VTNamed "Gone"; vd_default := None |}] [] [leaf 4 "color"]))
  = Some (ws, Err errs) /\ List.map error_pos errs = [Some (at_pos 1 9)].
Proof. eexists _, _. split; [vm_compute; reflexivity|]. reflexivity. Qed.
