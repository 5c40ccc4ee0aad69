(** Lemmas about two projects with other root directories and other prefixes of import lines. *)
From Verif Require Export SpecMove.
From Verif Require Import LinkData LinkExt IntroCheck ShareWorlds GlobalRead JsonCheck WrittenEq Package RespFacts RunFacts GlobalText LinkFacts.
(** The options for what is generated are all that the printing looks at *)
Definition placed (r : string) (p : option string) (c : cconfig) : cconfig :=
  {| cc_root_dir := r; cc_deprecations := cc_deprecations c; cc_readonly := cc_readonly c; cc_bottom := cc_bottom c; cc_import_prefix := p;
     cc_globals_module := cc_globals_module c; cc_docnode_module := cc_docnode_module c |}.
Lemma same_placed c c' : same_output_options c c' -> c' = placed (cc_root_dir c') (cc_import_prefix c') c.
Proof. intros (A & B & C & D & E). destruct c, c'. cbn in *. subst. reflexivity. Qed.
Section Placed.
Variables (c : cconfig) (r0 : string) (p0 : option string) (o : order).
Notation c' := (placed r0 p0 c).
Definition poss_even (x x' : poss) : Prop :=
  po_name x = po_name x' /\ po_ids x = po_ids x' /\ forall p cn path g, po_render x p cn path g = po_render x' p cn path g.
Lemma even_commons others others' : Forall2 poss_even others others' -> forall cm,
  fold_left (fun cm x => filter (fun n => smem n (po_ids x)) cm) others cm = fold_left (fun cm x => filter (fun n => smem n (po_ids x)) cm) others' cm.
Proof. induction 1 as [|x x' l l' (_ & E & _) F IH]; intros cm; cbn [fold_left]; auto. rewrite E. apply IH. Qed.
Lemma even_repeats cm ps ps' : Forall2 poss_even ps ps' ->
  List.map po_name (filter (fun x => set_eqb cm (po_ids x)) ps) = List.map po_name (filter (fun x => set_eqb cm (po_ids x)) ps').
Proof. induction 1 as [|x x' l l' (N & E & _) F IH]; cbn [filter]; auto. rewrite E. destruct (set_eqb cm (po_ids x')); cbn [List.map]; rewrite ?N, IH; auto. Qed.
Lemma even_possibilities p repeated main ps ps' : Forall2 poss_even ps ps' -> forall i g defs names rep rep',
  match rep, rep' with Some x, Some x' => poss_even x x' | None, None => True | _, _ => False end ->
  match render_possibilities p i ps repeated main g defs names rep, render_possibilities p i ps' repeated main g defs names rep' with
  | Ok (ds, ns, g1, r), Ok (ds', ns', g1', r') => ds = ds' /\ ns = ns' /\ g1 = g1' /\
      match r, r' with Some x, Some x' => poss_even x x' | None, None => True | _, _ => False end
  | Err e, Err e' => e = e'
  | _, _ => False
  end.
Proof.
  induction 1 as [|x x' l l' L F IH]; intros i g defs names rep rep' R; cbn [render_possibilities]; auto.
  destruct L as (N & I & H). rewrite N. destruct (smem (po_name x') repeated); [apply IH; auto; split; auto|].
  rewrite (H (i :: 0 :: p) (po_name x') (main +++ "_" +++ po_name x') g). destruct (po_render x' _ _ _ _) as [[ds' g1']|e']; [apply IH; exact R|reflexivity].
Qed.
Lemma even_collection p ps ps' main g : Forall2 poss_even ps ps' -> ts_collection o p ps main g = ts_collection o p ps' main g.
Proof.
  intros F. pose proof F as F0. destruct F0 as [|x x' l l' L F1]; [reflexivity|]. cbn [ts_collection].
  destruct F1 as [|y y' l l' L2 F1]; [destruct L as (N & _ & H); rewrite N; apply H|].
  pose proof L as (N & I & H). rewrite I, (even_commons (y :: l) (y' :: l')) by (constructor; auto). rewrite (even_repeats _ _ _ F).
  set (rep := sunion [] _). assert (Ln : List.length (x :: y :: l) = List.length (x' :: y' :: l')) by (clear - F; induction F; cbn; auto). rewrite Ln.
  destruct (Nat.eqb _ _); [apply H|].
  pose proof (even_possibilities p rep main _ _ F 0 g [] [] None None Logic.I) as K.
  destruct (render_possibilities p 0 (x :: y :: l) rep main g [] [] None) as [[[[ds ns] g1] r]|e],
    (render_possibilities p 0 (x' :: y' :: l') rep main g [] [] None) as [[[[ds' ns'] g1'] r']|e']; try contradiction; [|congruence].
  destruct K as (-> & -> & -> & Kr). destruct r as [z|], r' as [z'|]; try contradiction; auto.
  unfold smoosh. destruct Kr as (_ & _ & Kr). rewrite Kr. reflexivity.
Qed.
Lemma even_prepared xs : Forall (fun x => forall p cn path g, ts_complex c o x p cn path g = ts_complex c' o x p cn path g) xs ->
  Forall2 poss_even (List.map (prepare c o) xs) (List.map (prepare c' o) xs).
Proof. induction 1 as [|x xs H F IH]; cbn [List.map]; constructor; auto. split; [reflexivity|]. split; [reflexivity|exact H]. Qed.
Lemma even_render :
  (forall f, forall p cn path g, ts_field c o f p cn path g = ts_field c' o f p cn path g) /\
  (forall t, forall p cn path g, ts_type c o t p cn path g = ts_type c' o t p cn path g) /\
  (forall x, forall p cn path g, ts_complex c o x p cn path g = ts_complex c' o x p cn path g).
Proof.
  apply (ir_mutind (fun f => forall p cn path g, ts_field c o f p cn path g = ts_field c' o f p cn path g)
    (fun t => forall p cn path g, ts_type c o t p cn path g = ts_type c' o t p cn path g)
    (fun x => forall p cn path g, ts_complex c o x p cn path g = ts_complex c' o x p cn path g)).
  - intros k d dp l r t IH p cn path g. rewrite !ts_field_eq, IH. reflexivity.
  - reflexivity.
  - reflexivity.
  - reflexivity.
  - intros xs F p cn path g. rewrite !ts_type_complex, (even_collection p _ _ path g (even_prepared _ F)). reflexivity.
  - intros n fs F p cn path g. rewrite !ts_complex_eq. generalize 0, (@nil string) at 1 3. generalize (@nil string). revert g.
    induction F as [|f fs Hf F IH]; intros g a j b; cbn [t_fields]; [reflexivity|]. rewrite Hf. destruct (ts_field c' o f _ _ _ _) as [[[ds m] u]|e]; auto.
Qed.
Lemma even_variables s vs : forall g, variable_types c s vs g = variable_types c' s vs g.
Proof.
  induction vs as [|v vs IH]; intros g; cbn [variable_types]; auto. change (variable_type_name c' s v g) with (variable_type_name c s v g).
  destruct (variable_type_name c s v g) as [[t g1]|e]; auto. rewrite IH. reflexivity.
Qed.
Lemma even_ir s op : compile_ir c o s op = compile_ir c' o s op.
Proof.
  unfold compile_ir. rewrite (even_collection [0] _ _ (op_name op) [] (even_prepared (op_collection op) (proj2 (Forall_forall _ _) (fun x _ => proj2 (proj2 even_render) x)))).
  destruct (ts_collection _ _ _ _ _) as [[ds g]|e]; [|reflexivity]. unfold variables_definition. destruct (op_variables op) as [vs|]; [rewrite even_variables|]; reflexivity.
Qed.
End Placed.
Lemma placed_ir c c' : same_output_options c c' -> forall o s op, compile_ir c o s op = compile_ir c' o s op.
Proof. intros S o s op. rewrite (same_placed _ _ S). apply even_ir. Qed.
Lemma placed_text c c' : same_output_options c c' -> forall n t d, def_text c' n t d -> def_text c n t d.
Proof. intros S n t d. rewrite (same_placed _ _ S). intros H. inversion H; subst; econstructor; eauto. Qed.
