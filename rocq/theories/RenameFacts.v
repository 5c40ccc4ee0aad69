(** Lemmas: what is printed is the same for every name of the document. *)
From Verif Require Import DefFacts RunFacts RenderFacts GlobalFacts.
From Verif Require Export SpecRename.

Lemma concat_cons a l : String.concat "" (a :: l) = a +++ String.concat "" l.
Proof. destruct l; cbn [String.concat]; [rewrite sapp_nil_r; reflexivity|reflexivity]. Qed.
Lemma fill_nil n : fill n [] = "".
Proof. reflexivity. Qed.
Lemma fill_cons n x t : fill n (x :: t) = match x with Some a => a | None => n end +++ fill n t.
Proof. unfold fill. cbn [List.map]. apply concat_cons. Qed.
Lemma fill_app n a b : fill n (a ++ b) = fill n a +++ fill n b.
Proof. induction a as [|x a IH]; [reflexivity|]. cbn [List.app]. rewrite !fill_cons, IH, sapp_assoc. reflexivity. Qed.
Definition name_form : form := [None].
Definition text_form (a : string) : form := [Some a].
Lemma fill_name n : fill n name_form = n.
Proof. reflexivity. Qed.
Lemma fill_text n a : fill n (text_form a) = a.
Proof. reflexivity. Qed.
Fixpoint join_form (sep : string) (l : list form) : form :=
  match l with [] => [] | [t] => t | t :: l => t ++ text_form sep ++ join_form sep l end.
Lemma fill_join n sep l : fill n (join_form sep l) = join sep (List.map (fill n) l).
Proof.
  induction l as [|t l IH]; [reflexivity|]. destruct l as [|u l]; [reflexivity|].
  change (join_form sep (t :: u :: l)) with (t ++ text_form sep ++ join_form sep (u :: l)). rewrite !fill_app, fill_text, IH. reflexivity.
Qed.
Definition single_form (m : fmod) (t : form) : form :=
  match m with
  | MNone => t
  | MNullable => t ++ text_form " | null"
  | MList => t ++ text_form "[]"
  | MNullableList => t ++ text_form "[] | null"
  | MListOfNullable => text_form "(" ++ t ++ text_form " | null)[]"
  | MNullableListOfNullable => text_form "(" ++ t ++ text_form " | null)[] | null"
  end.
Lemma fill_single n m t : fill n (single_form m t) = single_prop_type_def m (fill n t).
Proof. destruct m; cbn [single_form single_prop_type_def]; rewrite ?fill_app, ?fill_text; reflexivity. Qed.
Definition prop_form (firsts : list fmod) (last : fmod) (t : form) : form :=
  fold_left (fun r m => single_form m (text_form "(" ++ r ++ text_form ")")) firsts (single_form last t).
Lemma fill_prop n firsts last t : fill n (prop_form firsts last t) = prop_type_def firsts last (fill n t).
Proof.
  unfold prop_form, prop_type_def. rewrite <- fill_single. generalize (single_form last t). induction firsts as [|m l IH]; intros r; cbn [fold_left]; auto.
  rewrite IH, fill_single, !fill_app, !fill_text. reflexivity.
Qed.

Section Uniform.
Variables (c : cconfig) (o : order).
(** Whatever the name: the same error, or texts of the same form *)
Definition uniform (F : string -> res ts_error (list string * gset)) : Prop :=
  (exists e, forall n, F n = Err e) \/ exists ts g, forall n, F n = Ok (List.map (fill n) ts, g).
Definition uniform3 (F : string -> res ts_error (list string * string * gset)) : Prop :=
  (exists e, forall n, F n = Err e) \/ exists ts t g, forall n, F n = Ok (List.map (fill n) ts, fill n t, g).
Definition poss_uniform (x : poss) : Prop := forall p cn pt g, uniform (fun n => po_render x p cn (fill n pt) g).

Lemma possibilities_uniform p repeated pt ps : Forall poss_uniform ps -> forall i g defs names rep,
  match rep with Some x => poss_uniform x | None => True end ->
  (exists e, forall n, render_possibilities p i ps repeated (fill n pt) g (List.map (fill n) defs) (List.map (fill n) names) rep = Err e) \/
  exists ds ns g' rep', match rep' with Some x => poss_uniform x | None => True end /\
    forall n, render_possibilities p i ps repeated (fill n pt) g (List.map (fill n) defs) (List.map (fill n) names) rep = Ok (List.map (fill n) ds, List.map (fill n) ns, g', rep').
Proof.
  induction 1 as [|x ps U F IH]; intros i g defs names rep R; cbn [render_possibilities].
  - right. exists defs, names, g, rep. auto.
  - destruct (smem (po_name x) repeated); [apply IH; auto|].
    destruct (U (i :: 0 :: p) (po_name x) (pt ++ text_form ("_" +++ po_name x)) g) as [(e & E)|(ds & g' & E)].
    + left. exists e. intros n. specialize (E n). rewrite fill_app, fill_text in E. rewrite E. reflexivity.
    + destruct (IH (S i) g' (defs ++ ds) (names ++ [pt ++ text_form ("_" +++ po_name x)]) rep R) as [(e & K)|(ds' & ns & g2 & rep' & R' & K)].
      * left. exists e. intros n. specialize (E n). specialize (K n). rewrite fill_app, fill_text in E. rewrite E.
        rewrite !map_app in K. cbn [List.map] in K. rewrite fill_app, fill_text in K. exact K.
      * right. exists ds', ns, g2, rep'. split; auto. intros n. specialize (E n). specialize (K n). rewrite fill_app, fill_text in E. rewrite E.
        rewrite !map_app in K. cbn [List.map] in K. rewrite fill_app, fill_text in K. exact K.
Qed.
Lemma collection_uniform p ps pt g : Forall poss_uniform ps -> uniform (fun n => ts_collection o p ps (fill n pt) g).
Proof.
  intros F. destruct ps as [|first [|second others]]; [left; eexists; reflexivity| |].
  - inversion F; subst. cbn [ts_collection]. auto.
  - unfold ts_collection. set (repeated := sunion [] _). destruct (Nat.eqb _ _).
    + inversion F; subst. unfold smoosh. auto.
    + destruct (possibilities_uniform p repeated pt _ F 0 g [] [] None I) as [(e & K)|(ds & ns & g' & rep & R & K)].
      * left. exists e. intros n. specialize (K n). cbn [List.map] in K. rewrite K. reflexivity.
      * assert (Fin : forall defs names (g1 : gset), exists ts, forall n,
          List.map (fill n) defs ++ ["export type " +++ fill n pt +++ " = " +++ join " | " (List.map (fill n) names) +++ ";"] = List.map (fill n) ts /\ g1 = g1).
        { intros defs names g1. exists (defs ++ [text_form "export type " ++ pt ++ text_form " = " ++ join_form " | " names ++ text_form ";"]). intros n. split; auto.
          rewrite map_app. cbn [List.map]. rewrite !fill_app, fill_join, !fill_text. reflexivity. }
        destruct rep as [x|].
        -- destruct (R (2 :: p) (join (dq +++ " | " +++ dq) (sort_by (fun x => x) (o (1 :: p) _ repeated))) (pt ++ text_form "_$$other") g') as [(e & E)|(ds2 & g2 & E)].
           ++ left. exists e. intros n. specialize (K n). specialize (E n). cbn [List.map] in K. rewrite K. unfold smoosh. rewrite fill_app, fill_text in E. rewrite E. reflexivity.
           ++ destruct (Fin (ds ++ ds2) (ns ++ [pt ++ text_form "_$$other"]) g2) as (ts & Ft). right. exists ts, g2. intros n. specialize (K n). specialize (E n). cbn [List.map] in K. rewrite K.
              unfold smoosh. rewrite fill_app, fill_text in E. rewrite E. destruct (Ft n) as [<- _]. rewrite !map_app. cbn [List.map]. rewrite fill_app, fill_text. reflexivity.
        -- destruct (Fin ds ns g') as (ts & Ft). right. exists ts, g'. intros n. specialize (K n). cbn [List.map] in K. rewrite K. destruct (Ft n) as [<- _]. reflexivity.
Qed.
Definition uni_f (f : irfield) : Prop := forall p cn pt g, uniform3 (fun n => ts_field c o f p cn (fill n pt) g).
Definition uni_t (t : irtype) : Prop := forall p cn pt g, uniform3 (fun n => ts_type c o t p cn (fill n pt) g).
Definition uni_c (x : ircomplex) : Prop := forall p cn pt g, uniform (fun n => ts_complex c o x p cn (fill n pt) g).
Lemma prepared_uniform xs : Forall uni_c xs -> Forall poss_uniform (List.map (prepare c o) xs).
Proof. induction 1 as [|x xs U F IH]; constructor; auto. Qed.
Lemma render_uniform : (forall f, uni_f f) /\ (forall t, uni_t t) /\ (forall x, uni_c x).
Proof.
  apply (ir_mutind uni_f uni_t uni_c).
  - intros k d dp l r t IH p cn pt g. destruct (IH p cn (pt ++ text_form ("_" +++ k)) g) as [(e & E)|(ts & t0 & g' & E)].
    + left. exists e. intros n. specialize (E n). rewrite fill_app, fill_text in E. rewrite ts_field_eq, E. reflexivity.
    + right. exists ts, (text_form ("  " +++ compile_documentation d dp 2 +++ (if cc_readonly c then "readonly " else "") +++ k +++ ": ") ++ prop_form r l t0 ++ text_form ";"), g'.
      intros n. specialize (E n). rewrite fill_app, fill_text in E. rewrite ts_field_eq, E. rewrite !fill_app, fill_prop, !fill_text. unfold prop_line. rewrite !sapp_assoc. reflexivity.
  - intros p cn pt g. right. exists [], (text_form (dq +++ cn +++ dq)), g. reflexivity.
  - intros x p cn pt g. right. exists [], (text_form x), (sadd x g). reflexivity.
  - intros sc p cn pt g. right. exists [], (text_form (scalar_ts c sc)), g. reflexivity.
  - intros xs F p cn pt g. destruct (collection_uniform p _ pt g (prepared_uniform _ F)) as [(e & E)|(ts & g' & E)].
    + left. exists e. intros n. rewrite ts_type_complex, E. reflexivity.
    + right. exists ts, pt, g'. intros n. rewrite ts_type_complex, E. reflexivity.
  - intros nm fs F p cn pt g.
    assert (K : forall j g defs props, uniform (fun n => t_fields c o p cn (fill n pt) j fs g (List.map (fill n) defs) (List.map (fill n) props))).
    { induction F as [|f fs Hf F IH]; intros j g0 defs props; cbn [t_fields].
      - right. exists (defs ++ [text_form "export type " ++ pt ++ text_form (" = {" +++ nl) ++ join_form nl props ++ text_form (nl +++ "};")]), g0.
        intros n. rewrite map_app. cbn [List.map]. rewrite !fill_app, fill_join, !fill_text, !sapp_assoc. reflexivity.
      - destruct (Hf (j :: p) cn pt g0) as [(e & E)|(ts & t & g' & E)].
        + left. exists e. intros n. rewrite E. reflexivity.
        + destruct (IH (S j) g' (defs ++ ts) (props ++ [t])) as [(e & K)|(ts' & g2 & K)].
          * left. exists e. intros n. rewrite E. specialize (K n). rewrite !map_app in K. exact K.
          * right. exists ts', g2. intros n. rewrite E. specialize (K n). rewrite !map_app in K. exact K. }
    specialize (K 0 g [] []). destruct K as [(e & E)|(ts & g' & E)].
    + left. exists e. intros n. rewrite ts_complex_eq. apply E.
    + right. exists ts, g'. intros n. rewrite ts_complex_eq. apply E.
Qed.

Definition call (n : string) (op : operation) : operation :=
  {| op_name := n; op_collection := op_collection op; op_variables := op_variables op; op_kind := op_kind op |}.
Lemma compile_uniform s op :
  (exists e, forall n, compile_ir c o s (call n op) = Err e) \/
  exists t g, forall n, compile_ir c o s (call n op) = Ok {| co_contents := fill n t; co_globals := g |}.
Proof.
  assert (F : Forall uni_c (op_collection op)) by (apply Forall_forall; intros; apply render_uniform).
  destruct (collection_uniform [0] _ name_form [] (prepared_uniform _ F)) as [(e & E)|(ts & g & E)].
  { left. exists e. intros n. unfold compile_ir. cbn [call op_name op_collection]. specialize (E n). rewrite fill_name in E. rewrite E. reflexivity. }
  assert (Vs : (exists e, forall n, variables_definition c s (call n op) g = Err e) \/
    (exists g', forall n, variables_definition c s (call n op) g = Ok (None, g')) \/
    exists a t g', forall n, variables_definition c s (call n op) g = Ok (Some (fill n a, fill n t), g')).
  { unfold variables_definition. cbn [call op_name op_variables]. destruct (op_variables op) as [vs|]; [|right; left; exists g; reflexivity].
    destruct (variable_types c s vs g) as [[r g']|e]; [|left; exists e; reflexivity]. right. right.
    exists (name_form ++ text_form "Variables"),
      (text_form (nl +++ nl +++ "export type ") ++ name_form ++ text_form ("Variables = {" +++ nl +++ join nl (List.map variable_line (sort_by (fun x => v_name (fst x)) r)) +++ nl +++ "};")), g'.
    intros n. rewrite !fill_app, !fill_name, !fill_text, !sapp_assoc. reflexivity. }
  destruct Vs as [(e & Ev)|[(g' & Ev)|(a & t & g' & Ev)]].
  - left. exists e. intros n. unfold compile_ir. cbn [call op_name op_collection]. specialize (E n). rewrite fill_name in E. rewrite E. fold (call n op). rewrite Ev. reflexivity.
  - right. exists (text_form (header +++ compile_imports c o (docnode_name (op_kind op)) g') ++ join_form (nl +++ nl) ts ++
      text_form (nl +++ nl +++ "declare const graphqlDocument: " +++ docnode_name (op_kind op) +++ "<") ++ name_form ++
      text_form (match op_kind op with OKFragment => ">" | _ => ", never>" end +++ ";" +++ nl +++ "export default graphqlDocument;")), g'.
    intros n. unfold compile_ir. cbn [call op_name op_collection op_kind]. specialize (E n). rewrite fill_name in E. rewrite E. fold (call n op). rewrite Ev.
    rewrite !fill_app, fill_join, fill_name, !fill_text. destruct (op_kind op); rewrite !sapp_assoc; reflexivity.
  - right. exists (text_form (header +++ compile_imports c o (docnode_name (op_kind op)) g') ++ join_form (nl +++ nl) ts ++ t ++
      text_form (nl +++ nl +++ "declare const graphqlDocument: " +++ docnode_name (op_kind op) +++ "<") ++ name_form ++
      match op_kind op with OKFragment => text_form ">" | _ => text_form ", " ++ a ++ text_form ">" end ++ text_form (";" +++ nl +++ "export default graphqlDocument;")), g'.
    intros n. unfold compile_ir. cbn [call op_name op_collection op_kind]. specialize (E n). rewrite fill_name in E. rewrite E. fold (call n op). rewrite Ev.
    rewrite !fill_app, fill_join, fill_name, !fill_text. destruct (op_kind op); rewrite ?fill_app, ?fill_text, !sapp_assoc; reflexivity.
Qed.
End Uniform.

(** The name of a document is only carried along *)
Lemma compile_called fuel cx d : (forall p l, d <> DOp (OpSelectionSet p l)) ->
  compile_definition fuel cx d = None /\ (forall n, compile_definition fuel cx (under_name n d) = None) \/
  (exists ws es, compile_definition fuel cx d = Some (ws, Err es) /\ forall n, compile_definition fuel cx (under_name n d) = Some (ws, Err es)) \/
  exists ws op, compile_definition fuel cx d = Some (ws, Ok op) /\ op_name op = def_name d /\
    forall n, compile_definition fuel cx (under_name n d) = Some (ws, Ok (call n op)).
Proof.
  intros Nd. destruct d as [[p l|k p nm vs ds l]|f]; [destruct (Nd p l eq_refl)| |]; cbn [compile_definition build_from_operation under_name fr_cond fr_pos fr_sels fr_name].
  - destruct (new_ctrav _ _ p) as [par|e]; [|right; left; eauto].
    destruct (collect fuel cx [0] l par RootLocal) as [[[q ws] [|e es]]|]; [|right; left; eauto|left; auto].
    destruct (collection_of _ _ q) as [cs|e]; [|right; left; eauto]. destruct (try_build_variable_ir _ vs) as [v|e]; [|right; left; eauto].
    right. right. eexists _, _. split; [reflexivity|]. split; [destruct nm, k; reflexivity|]. reflexivity.
  - destruct (new_ctrav _ _ _) as [par|e]; [|right; left; eauto].
    destruct (collect fuel cx [0] (fr_sels f) par RootLocal) as [[[q ws] [|e es]]|]; [|right; left; eauto|left; auto].
    destruct (collection_of _ _ q) as [cs|e]; [|right; left; eauto].
    right. right. eexists _, _. split; [reflexivity|]. split; reflexivity.
Qed.
