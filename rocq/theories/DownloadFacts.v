(** Lemmas about the answer to the introspection query. *)
From Verif Require Import DecodeFacts SpecDownload.

Definition obj (sv : server) (q : list isel) (o : iobj) : json := JObj (List.map (fun y => execute sv y o) q).

Lemma complete_str run o : d_opt d_str (complete run (v_str o)) = Some o.
Proof. destruct o; reflexivity. Qed.

Lemma execute_eq sv n old subs o : execute sv (IS n old subs) o = (n, complete (obj sv subs) (resolve sv o n old)).
Proof. reflexivity. Qed.

Lemma type_ref_d sv n : forall t, d_type (obj sv (type_ref n) (OType t)) = Some (cut n t).
Proof.
  induction n as [|n IH]; intros [k m o]; rewrite d_type_eq; unfold obj, req, opt.
  - cbn -[d_opt]. rewrite complete_str. reflexivity.
  - cbn [type_ref app List.map entries execute complete resolve is leaf].
    change (resolve sv (OType (JT k m o)) "kind" false) with (VStr k). change (resolve sv (OType (JT k m o)) "name" false) with (v_str m).
    change (resolve sv (OType (JT k m o)) "ofType" false) with (match o with None => VNull | Some t => VObj (OType t) end).
    cbn [once String.eqb Ascii.eqb Bool.eqb]. change (complete _ (VStr k)) with (JStr k).
    cbn -[d_opt d_type obj execute complete v_str type_ref]. rewrite complete_str. destruct o as [t|]; [|reflexivity].
    cbn [complete]. fold (obj sv (type_ref n) (OType t)). specialize (IH t).
    assert (X : d_opt d_type (obj sv (type_ref n) (OType t)) = Some (Some (cut n t))).
    { change (d_opt d_type (obj sv (type_ref n) (OType t))) with (option_map Some (d_type (obj sv (type_ref n) (OType t)))). rewrite IH. reflexivity. }
    rewrite X. reflexivity.
Qed.

Lemma input_d sv f : d_field (obj sv q_input_value (OInput f)) = Some (short_field f).
Proof.
  unfold d_field, obj, req, opt. cbn [q_input_value List.map entries leaf]. rewrite !execute_eq.
  cbn -[d_opt d_type obj q_type_ref]. rewrite complete_str. unfold q_type_ref. rewrite type_ref_d. reflexivity.
Qed.
Lemma field_d sv p f : d_field (obj sv q_field (OField p f)) = Some (short_field f).
Proof.
  unfold d_field, obj, req, opt. cbn [q_field List.map entries leaf]. rewrite !execute_eq.
  cbn -[d_opt d_type obj q_type_ref q_input_value]. rewrite complete_str. unfold q_type_ref. rewrite type_ref_d. reflexivity.
Qed.
Lemma value_d sv p v : d_name (obj sv [leaf "name"; leaf "description"] (OValue p v)) = Some v.
Proof. reflexivity. Qed.
Lemma possible_d sv n : d_name (obj sv q_type_ref (v_ref "OBJECT" n)) = Some n.
Proof. reflexivity. Qed.

Lemma list_d {A B} sv q (d : json -> option B) (mk : A -> iobj) (g : A -> B) (o : option (list A)) :
  (forall a, d (obj sv q (mk a)) = Some (g a)) ->
  d_opt (d_list d) (complete (obj sv q) (v_list mk o)) = Some (option_map (List.map g) o).
Proof.
  intros H. destruct o as [l|]; [|reflexivity]. cbn. assert (X : d_all d (List.map (obj sv q) (List.map mk l)) = Some (List.map g l)).
  { induction l as [|a l IH]; [reflexivity|]. cbn -[obj]. rewrite H, IH. reflexivity. }
  rewrite X. reflexivity.
Qed.
Lemma map_id' {A} (o : option (list A)) : option_map (List.map (fun x => x)) o = o.
Proof. destruct o as [l|]; [cbn; rewrite List.map_id|]; reflexivity. Qed.

Lemma inputs_d sv o : option_map (List.map short_field) (option_map (v_inputs sv false) o) =
  option_map (fun l => List.map short_field (shown (sv_hides sv) l)) o.
Proof.
  destruct o as [l|]; [|reflexivity]. cbn [option_map]. do 2 f_equal. unfold v_inputs, v_fields, shown. destruct (sv_hides sv); [|reflexivity]. cbn [orb negb].
  apply filter_ext. intros f. unfold current. destruct (jf_deprecated f) as [[]|]; reflexivity.
Qed.
Lemma option_map_id {A} (g : A -> A) (o : option A) : (forall x, g x = x) -> option_map g o = o.
Proof. intros H. destruct o; cbn; rewrite ?H; reflexivity. Qed.
Lemma typedef_d sv t : d_typedef (obj sv q_full_type (OFull t)) = Some (short_typedef (sv_hides sv) t).
Proof.
  unfold d_typedef, obj, req, opt. cbn [q_full_type List.map entries leaf]. rewrite !execute_eq.
  cbn -[d_opt d_type obj q_type_ref q_input_value q_field d_name d_field v_list v_str d_list v_inputs v_fields v_values].
  rewrite complete_str.
  rewrite (list_d sv q_type_ref d_name (v_ref "OBJECT") (fun x => x) _ (possible_d sv)), map_id'.
  rewrite (list_d sv q_input_value d_field OInput short_field _ (input_d sv)), inputs_d.
  rewrite (list_d sv q_field d_field (OField (jt_name t)) short_field _ (field_d sv (jt_name t))), (option_map_id (v_fields true)) by reflexivity.
  rewrite (list_d sv [leaf "name"; leaf "description"] d_name (OValue (jt_name t)) (fun x => x) _ (value_d sv (jt_name t))), map_id', (option_map_id (v_values sv (jt_name t) true)) by reflexivity. reflexivity.
Qed.

Lemma answer_d sv : d_schema (answer sv introspection_query) = Some (List.map (short_typedef (sv_hides sv)) (sv_types sv)).
Proof.
  unfold d_schema, answer, req. cbn [introspection_query List.map entries once]. rewrite execute_eq.
  cbn -[d_list obj q_full_type]. unfold obj at 1. cbn [List.map leaf entries]. rewrite !execute_eq.
  cbn -[d_list obj q_full_type]. cbn [d_list]. induction (sv_types sv) as [|t l IH]; [reflexivity|].
  cbn [List.map d_all]. rewrite typedef_d, IH. reflexivity.
Qed.

(** The whole answer *)
Lemma text_whole run o : complete run (v_str o) = ans_text o.
Proof. destruct o; reflexivity. Qed.
Lemma ref_whole sv n : forall t, obj sv (type_ref n) (OType t) = ans_ref n t.
Proof.
  induction n as [|n IH]; intros [k m o]; unfold obj; cbn [type_ref app List.map leaf ans_ref]; unfold leaf; rewrite !execute_eq;
    change (resolve sv (OType (JT k m o)) "kind" false) with (VStr k); change (resolve sv (OType (JT k m o)) "name" false) with (v_str m); rewrite text_whole; [reflexivity|].
  change (resolve sv (OType (JT k m o)) "ofType" false) with (match o with None => VNull | Some t => VObj (OType t) end).
  destruct o as [t|]; [|reflexivity]. cbn [complete]. rewrite IH. reflexivity.
Qed.
Lemma list_whole {A} sv q (mk : A -> iobj) (g : A -> json) (o : option (list A)) : (forall a, obj sv q (mk a) = g a) ->
  complete (obj sv q) (v_list mk o) = ans_list g o.
Proof. intros H. destruct o as [l|]; [|reflexivity]. cbn [v_list complete ans_list]. f_equal. rewrite List.map_map. apply List.map_ext. exact H. Qed.
Lemma shown_whole sv l : v_inputs sv false l = shown (sv_hides sv) l.
Proof.
  unfold v_inputs, v_fields, shown. destruct (sv_hides sv); [|reflexivity]. cbn [orb negb].
  apply filter_ext. intros f. unfold current. destruct (jf_deprecated f) as [[]|]; reflexivity.
Qed.
Lemma input_whole sv f : obj sv q_input_value (OInput f) = ans_input sv f.
Proof.
  unfold obj. cbn [q_input_value List.map leaf]. unfold leaf; rewrite !execute_eq. cbn -[obj q_type_ref v_str]. rewrite !text_whole. unfold q_type_ref. rewrite ref_whole. reflexivity.
Qed.
Lemma field_whole sv p f : obj sv q_field (OField p f) = ans_field sv p f.
Proof.
  unfold obj. cbn [q_field List.map leaf]. unfold leaf; rewrite !execute_eq. cbn -[obj q_type_ref v_str q_input_value v_inputs]. rewrite !text_whole, shown_whole. unfold q_type_ref. rewrite ref_whole.
  rewrite List.map_map, (List.map_ext _ (ans_input sv) (input_whole sv)). reflexivity.
Qed.
Lemma type_whole sv t : obj sv q_full_type (OFull t) = ans_type sv t.
Proof.
  unfold obj. cbn [q_full_type List.map leaf]. unfold leaf; rewrite !execute_eq.
  cbn -[obj q_type_ref v_str q_input_value q_field v_inputs v_fields v_values v_list]. rewrite !text_whole.
  rewrite (option_map_id (v_fields true)), (option_map_id (v_values sv (jt_name t) true)) by reflexivity.
  rewrite (list_whole sv q_field _ _ _ (field_whole sv (jt_name t))), (list_whole sv q_input_value _ _ _ (input_whole sv)).
  rewrite (list_whole sv q_type_ref (v_ref "INTERFACE") (ans_named "INTERFACE")) by (intros a; apply ref_whole).
  rewrite (list_whole sv q_type_ref (v_ref "OBJECT") (ans_named "OBJECT")) by (intros a; apply ref_whole).
  rewrite (list_whole sv _ (OValue (jt_name t)) (fun v => JObj [("name", JStr v); ("description", ans_text (sv_value_doc sv (jt_name t) v))]))
    by (intros v; unfold obj; cbn [List.map leaf]; unfold leaf; rewrite !execute_eq; cbn -[v_str]; rewrite text_whole; reflexivity).
  unfold ans_type. destruct (jt_input_fields t) as [l|]; [|reflexivity]. cbn [option_map]. rewrite shown_whole. reflexivity.
Qed.
