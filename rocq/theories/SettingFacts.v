(** Lemmas for two sets of options. *)
From Verif Require Import DefFacts RunFacts RenderFacts GlobalFacts.
From Verif Require Export SpecSetting.
From Coq Require Import Lia.

(** ** Texts *)
Section Texts.
Variable V : string -> string -> Prop.
Lemma differs_refl a : differs V a a.
Proof. induction a as [|ch a IH]; constructor; auto. Qed.
Lemma differs_app a b x y : differs V a b -> differs V x y -> differs V (a +++ x) (b +++ y).
Proof.
  induction 1 as [|ch a b D IH|u v a b H D IH]; intros E; cbn [append]; auto; [constructor; auto|].
  rewrite !sapp_assoc. apply df_place; auto.
Qed.
Lemma differs_at x y : V x y -> differs V x y.
Proof. intros H. rewrite <- (sapp_nil_r x), <- (sapp_nil_r y). apply df_place; auto. constructor. Qed.
Lemma differs_join sep l l' : Forall2 (differs V) l l' -> differs V (join sep l) (join sep l').
Proof.
  unfold join. induction 1 as [|a b l l' D F IH]; [constructor|]. inversion F; subst; cbn [concat] in *; auto.
  apply differs_app; auto. apply differs_app; auto. apply differs_refl.
Qed.
Lemma differs_single m a b : differs V a b -> differs V (single_prop_type_def m a) (single_prop_type_def m b).
Proof. intros D. destruct m; cbn [single_prop_type_def]; auto; repeat (apply differs_app; auto using differs_refl). Qed.
Lemma differs_prop firsts last a b : differs V a b -> differs V (prop_type_def firsts last a) (prop_type_def firsts last b).
Proof.
  intros D. unfold prop_type_def. apply (differs_single last) in D. revert D. generalize (single_prop_type_def last a) (single_prop_type_def last b).
  induction firsts as [|m l IH]; intros x y D; cbn [fold_left]; auto. apply IH. apply differs_single. repeat (apply differs_app; auto using differs_refl).
Qed.
Lemma differs_equal : (forall x y, V x y -> x = y) -> forall a b, differs V a b -> a = b.
Proof. intros H a b D. induction D; subst; auto. rewrite (H _ _ H0). reflexivity. Qed.
Lemma differs_same W : (forall x y, V x y -> differs W x y) -> forall a b, differs V a b -> differs W a b.
Proof.
  intros H a b D. induction D as [|ch a b D IH|u v a b K D IH]; [constructor|constructor; auto|].
  assert (G : forall x y p q, differs W x y -> differs W p q -> differs W (x +++ p) (y +++ q)).
  { induction 1 as [|ch x y E J|x y p0 q0 Q E J]; intros L; cbn [append]; auto; [constructor; auto|]. rewrite !sapp_assoc. apply df_place; auto. }
  apply G; auto.
Qed.
End Texts.

(** ** Warnings *)
Definition keep (ws : list warning) : list warning := filter (fun w => negb (is_depr w)) ws.
Definition kept (r : cresult) : cresult := let '(q, ws, es) := r in (q, keep ws, es).
Notation kepts := (option_map kept).
Lemma keep_app a b : keep (a ++ b) = keep a ++ keep b.
Proof. apply filter_app. Qed.

Section Collect.
Variables (s : schema) (dep dep' : bool) (fr : amap string fragdef) (o : order).
Notation cx := {| cx_schema := s; cx_deprecations := dep; cx_frags := fr; cx_order := o |}.
Notation cx' := {| cx_schema := s; cx_deprecations := dep'; cx_frags := fr; cx_order := o |}.
Definition alike (rec rec' : collector) : Prop := forall pth l par js, kepts (rec pth l par js) = kepts (rec' pth l par js).
Lemma kepts_inv (r r' : option cresult) : kepts r = kepts r' ->
  match r, r' with
  | Some (q, ws, es), Some (q', ws', es') => q = q' /\ keep ws = keep ws' /\ es = es'
  | None, None => True
  | _, _ => False
  end.
Proof. destruct r as [[[q ws] es]|], r' as [[[q' ws'] es']|]; cbn; intros E; try discriminate; [injection E|]; auto. Qed.
Lemma insert_alike rec rec' pth p al n sub par js : alike rec rec' ->
  kepts (insert_field rec cx pth p al n sub par js) = kepts (insert_field rec' cx' pth p al n sub par js).
Proof.
  intros A. unfold insert_field. cbn [cx_schema cx_deprecations cx_order].
  destruct (aget n (ct_lookup par)) as [f|]; [|reflexivity].
  destruct sub as [|x sub]; destruct (fdef_is_complex (ft_def (sf_type f))); try reflexivity.
  - destruct (insert_all _ _ _ _ _ _ _) as [tr [e|]]; [reflexivity|]. destruct (dep && sf_deprecated f && is_local js), (dep' && sf_deprecated f && is_local js); reflexivity.
  - destruct (new_ctrav s (ft_name (sf_type f)) p) as [sp|e]; [|reflexivity].
    pose proof (kepts_inv _ _ (A (2 :: pth) (x :: sub) sp js)) as R.
    destruct (rec (2 :: pth) (x :: sub) sp js) as [[[q ws] es]|], (rec' (2 :: pth) (x :: sub) sp js) as [[[q' ws'] es']|]; try contradiction; [|reflexivity].
    destruct R as (-> & Ew & ->). destruct es' as [|e' es'].
    + destruct (insert_all _ _ _ _ _ _ _) as [tr [e|]]; cbn; [rewrite Ew; reflexivity|]. rewrite !keep_app, Ew.
      destruct (dep && sf_deprecated f && is_local js), (dep' && sf_deprecated f && is_local js); reflexivity.
    + cbn [option_map kept]. rewrite Ew. reflexivity.
Qed.
Definition kept_sum (r : cresult + cresult) : cresult + cresult := match r with inl a => inl (kept a) | inr a => inr (kept a) end.
Lemma spread_alike rec rec' pth tn p sub par js : alike rec rec' ->
  option_map kept_sum (spread_into rec cx pth tn p sub par js) = option_map kept_sum (spread_into rec' cx' pth tn p sub par js).
Proof.
  intros A. unfold spread_into, clone_for_type_spread. cbn [cx_schema cx_order].
  destruct (new_ctrav s tn p) as [b|e]; [|reflexivity].
  set (objs := filter (fun x => amem (fst x) (ct_objs par)) (ct_objs b)).
  pose proof (kepts_inv _ _ (A (1 :: pth) sub {| ct_name := ct_name b; ct_lookup := ct_lookup b; ct_objs := objs |} js)) as R.
  destruct (rec _ _ _ _) as [[[q ws] es]|], (rec' _ _ _ _) as [[[q' ws'] es']|]; try contradiction; [|reflexivity].
  destruct R as (-> & Ew & ->). destruct es' as [|e' es'].
  - destruct (extend_ct o (2 :: pth) par q') as [r [e|]]; cbn; rewrite !keep_app, Ew; reflexivity.
  - cbn [option_map kept_sum kept]. rewrite !keep_app, Ew. reflexivity.
Qed.
Lemma loop_alike rec rec' : alike rec rec' -> forall l pth i par js ws ws' errs, keep ws = keep ws' ->
  kepts (collect_loop rec cx pth i l par js ws errs) = kepts (collect_loop rec' cx' pth i l par js ws' errs).
Proof.
  intros A. induction l as [|x l IH]; intros pth i par js ws ws' errs Ew; [cbn; rewrite Ew; reflexivity|].
  assert (Go : forall r r' : option (cresult + cresult), option_map kept_sum r = option_map kept_sum r' ->
    kepts (match r with None => None | Some (inl (p1, w1, e1)) => collect_loop rec cx pth (S i) l p1 js (ws ++ w1) (errs ++ e1)
           | Some (inr (p1, w1, e1)) => Some (p1, ws ++ w1, e1) end) =
    kepts (match r' with None => None | Some (inl (p1, w1, e1)) => collect_loop rec' cx' pth (S i) l p1 js (ws' ++ w1) (errs ++ e1)
           | Some (inr (p1, w1, e1)) => Some (p1, ws' ++ w1, e1) end)).
  { intros [[[[q w] e]|[[q w] e]]|] [[[[q' w'] e']|[[q' w'] e']]|] R; try discriminate; [| |reflexivity]; cbn in R; injection R as -> Rw ->.
    - apply IH; auto; rewrite !keep_app; congruence.
    - cbn. rewrite !keep_app. congruence. }
  destruct x as [p al n a d sub|p n d|p c d sub]; cbn [collect_loop].
  - apply Go. pose proof (insert_alike rec rec' (i :: pth) p al n sub par js A) as R.
    destruct (insert_field rec _ _ _ _ _ _ _ _) as [r|], (insert_field rec' _ _ _ _ _ _ _ _) as [r'|]; cbn in *; try discriminate; [injection R as ->|]; reflexivity.
  - cbn [cx_frags cx_order]. destruct (aget n fr) as [f|]; [apply Go; apply spread_alike; auto|].
    refine (Go (Some (inl (_, _, _))) (Some (inl (_, _, _))) _). reflexivity.
  - destruct c as [c|]; [|refine (Go (Some (inl (_, _, _))) (Some (inl (_, _, _))) _); reflexivity].
    apply Go. apply spread_alike; auto.
Qed.
Lemma collect_alike fuel : alike (collect fuel cx) (collect fuel cx').
Proof. induction fuel as [|k IH]; intros pth l par js; [reflexivity|]. cbn [collect]. apply loop_alike; auto. Qed.
Definition kept_ir (r : ir_result) : ir_result := (keep (fst r), snd r).
Lemma compile_alike fuel d : option_map kept_ir (compile_definition fuel cx d) = option_map kept_ir (compile_definition fuel cx' d).
Proof.
  destruct d as [[p l|k p n vs ds l]|f]; cbn [compile_definition build_from_operation cx_schema cx_order]; [reflexivity| |].
  - destruct (new_ctrav s (op_type_name k) p) as [par|e]; [|reflexivity].
    pose proof (kepts_inv _ _ (collect_alike fuel [0] l par RootLocal)) as R.
    destruct (collect fuel cx [0] l par RootLocal) as [[[q ws] es]|], (collect fuel cx' [0] l par RootLocal) as [[[q' ws'] es']|]; try contradiction; [|reflexivity].
    destruct R as (-> & Ew & ->). destruct es' as [|e' es']; [|unfold kept_ir; cbn [option_map fst snd]; rewrite Ew; reflexivity].
    destruct (collection_of o [1] q') as [cs|e]; [|unfold kept_ir; cbn [option_map fst snd]; rewrite Ew; reflexivity].
    destruct (try_build_variable_ir s vs); unfold kept_ir; cbn [option_map fst snd]; rewrite Ew; reflexivity.
  - destruct (new_ctrav s (fr_cond f) (fr_pos f)) as [par|e]; [|reflexivity].
    pose proof (kepts_inv _ _ (collect_alike fuel [0] (fr_sels f) par RootLocal)) as R.
    destruct (collect fuel cx [0] (fr_sels f) par RootLocal) as [[[q ws] es]|], (collect fuel cx' [0] (fr_sels f) par RootLocal) as [[[q' ws'] es']|]; try contradiction; [|reflexivity].
    destruct R as (-> & Ew & ->). destruct es' as [|e' es']; [|unfold kept_ir; cbn [option_map fst snd]; rewrite Ew; reflexivity].
    destruct (collection_of o [1] q') as [cs|e]; unfold kept_ir; cbn [option_map fst snd]; rewrite Ew; reflexivity.
Qed.
End Collect.

(** ** Modules *)
Section Render.
Variables (s : schema) (c c' : cconfig) (o : order).
Notation V := (option_place s c c').
Notation D := (differs V).
Hint Resolve differs_refl : core.
Definition res_like (r r' : res ts_error (list string * gset)) : Prop :=
  match r, r' with
  | Ok (ds, g), Ok (ds', g') => Forall2 D ds ds' /\ g = g'
  | Err e, Err e' => e = e'
  | _, _ => False
  end.
Definition res_like3 (r r' : res ts_error (list string * string * gset)) : Prop :=
  match r, r' with
  | Ok (ds, t, g), Ok (ds', t', g') => Forall2 D ds ds' /\ D t t' /\ g = g'
  | Err e, Err e' => e = e'
  | _, _ => False
  end.
Definition poss_like (x x' : poss) : Prop :=
  po_name x = po_name x' /\ po_ids x = po_ids x' /\ forall p cn path g, res_like (po_render x p cn path g) (po_render x' p cn path g).

Lemma scalar_like sc : (forall n, sc = ScCustom n -> names_scalar s n) -> D (scalar_ts c sc) (scalar_ts c' sc).
Proof. intros H. destruct sc; cbn [scalar_ts]; auto. apply differs_at. apply (op_scalar s c c' name (H name eq_refl)). Qed.
Lemma doc_end doc dp : exists d, "  " +++ compile_documentation doc dp 2 = d +++ "  ".
Proof.
  unfold compile_documentation. destruct (option_map _ doc) as [x|]; destruct dp; [| | |exists ""; reflexivity].
  all: match goal with |- exists d, _ +++ (?w +++ ?a +++ ?b +++ ?e +++ ?f +++ ?g +++ ?h +++ ?i +++ ?j +++ ?k +++ ?l +++ _) = _ =>
    exists ("  " +++ w +++ a +++ b +++ e +++ f +++ g +++ h +++ i +++ j +++ k +++ l) end; rewrite !sapp_assoc; reflexivity.
Qed.
Lemma line_like k doc dp last rest a b : D a b -> D (prop_line c k doc dp last rest a) (prop_line c' k doc dp last rest b).
Proof.
  intros H. unfold prop_line. destruct (doc_end doc dp) as [d E].
  assert (X : forall (b : bool) z, "  " +++ compile_documentation doc dp 2 +++ (if b then "readonly " else "") +++ z = d +++ property_word b +++ z).
  { intros b0 z. rewrite <- sapp_assoc, E, sapp_assoc. destruct b0; reflexivity. }
  rewrite !X. apply differs_app; auto. apply differs_app; [apply differs_at, op_readonly|].
  apply differs_app; auto. apply differs_app; auto. apply differs_app; auto. apply differs_prop. auto.
Qed.
Lemma commons others others' : Forall2 poss_like others others' -> forall cm,
  fold_left (fun cm x => filter (fun n => smem n (po_ids x)) cm) others cm = fold_left (fun cm x => filter (fun n => smem n (po_ids x)) cm) others' cm.
Proof. induction 1 as [|x x' l l' (_ & E & _) F IH]; intros cm; cbn [fold_left]; auto. rewrite E. apply IH. Qed.
Lemma repeats cm ps ps' : Forall2 poss_like ps ps' ->
  List.map po_name (filter (fun x => set_eqb cm (po_ids x)) ps) = List.map po_name (filter (fun x => set_eqb cm (po_ids x)) ps').
Proof. induction 1 as [|x x' l l' (N & E & _) F IH]; cbn [filter]; auto. rewrite E. destruct (set_eqb cm (po_ids x')); cbn [List.map]; rewrite ?N, IH; auto. Qed.
Lemma possibilities_like p repeated main ps ps' : Forall2 poss_like ps ps' -> forall i g defs defs' names rep rep',
  Forall2 D defs defs' -> match rep, rep' with Some x, Some x' => poss_like x x' | None, None => True | _, _ => False end ->
  match render_possibilities p i ps repeated main g defs names rep, render_possibilities p i ps' repeated main g defs' names rep' with
  | Ok (ds, ns, g1, r), Ok (ds', ns', g1', r') => Forall2 D ds ds' /\ ns = ns' /\ g1 = g1' /\
      match r, r' with Some x, Some x' => poss_like x x' | None, None => True | _, _ => False end
  | Err e, Err e' => e = e'
  | _, _ => False
  end.
Proof.
  induction 1 as [|x x' l l' L F IH]; intros i g defs defs' names rep rep' Fd R; cbn [render_possibilities]; auto.
  destruct L as (N & I & H). rewrite N. destruct (smem (po_name x') repeated); [apply IH; auto; split; auto|].
  specialize (H (i :: 0 :: p) (po_name x') (main +++ "_" +++ po_name x') g). unfold res_like in H.
  destruct (po_render x _ _ _ _) as [[ds g1]|e], (po_render x' _ _ _ _) as [[ds' g1']|e']; try contradiction; auto.
  destruct H as [Hd ->]. apply IH; auto. apply Forall2_app; auto.
Qed.
Lemma collection_like p ps ps' main g : Forall2 poss_like ps ps' -> res_like (ts_collection o p ps main g) (ts_collection o p ps' main g).
Proof.
  intros F. pose proof F as F0. destruct F0 as [|x x' l l' L F1]; [reflexivity|]. cbn [ts_collection].
  destruct F1 as [|y y' l l' L2 F1]; [destruct L as (N & _ & H); rewrite N; apply H|].
  pose proof L as (N & I & H). rewrite I, (commons (y :: l) (y' :: l')) by (constructor; auto). rewrite (repeats _ _ _ F).
  set (rep := sunion [] _). assert (Ln : List.length (x :: y :: l) = List.length (x' :: y' :: l')) by (clear - F; induction F; cbn; auto). rewrite Ln.
  destruct (Nat.eqb _ _); [apply H|].
  pose proof (possibilities_like p rep main _ _ F 0 g [] [] [] None None (Forall2_nil _) Logic.I) as K.
  destruct (render_possibilities p 0 (x :: y :: l) rep main g [] [] None) as [[[[ds ns] g1] r]|e],
    (render_possibilities p 0 (x' :: y' :: l') rep main g [] [] None) as [[[[ds' ns'] g1'] r']|e']; try contradiction; auto.
  destruct K as (Kd & -> & -> & Kr). destruct r as [z|], r' as [z'|]; try contradiction.
  - unfold smoosh. destruct Kr as (_ & _ & Kr). match goal with |- context [po_render z ?a ?b ?d ?e0] => specialize (Kr a b d e0) end. unfold res_like in Kr.
    destruct (po_render z _ _ _ _) as [[ds1 g2]|e], (po_render z' _ _ _ _) as [[ds1' g2']|e']; try contradiction; auto.
    destruct Kr as [K1 ->]. split; auto. apply Forall2_app; [apply Forall2_app; auto|]. constructor; auto.
  - split; auto. apply Forall2_app; auto.
Qed.
Definition like_f (f : irfield) : Prop := match f with IRField _ _ _ _ _ t =>
  (exists f0, (exists T n, field_of s T n f0) /\ ty_shape s f0 t) -> forall p cn path g, res_like3 (ts_field c o f p cn path g) (ts_field c' o f p cn path g) end.
Definition like_t (t : irtype) : Prop :=
  (exists f0, (exists T n, field_of s T n f0) /\ ty_shape s f0 t) -> forall p cn path g, res_like3 (ts_type c o t p cn path g) (ts_type c' o t p cn path g).
Definition like_c (x : ircomplex) : Prop :=
  fields_shape s (irc_fields x) -> forall p cn path g, res_like (ts_complex c o x p cn path g) (ts_complex c' o x p cn path g).
Lemma prepared_like P xs : coll_shape s P xs -> Forall like_c xs -> Forall2 poss_like (List.map (prepare c o) xs) (List.map (prepare c' o) xs).
Proof.
  intros Sh F. inversion Sh as [P0 xs0 So Nd Po Fs]; subst P0 xs0.
  assert (Ft : forall x, In x xs -> poss_like (prepare c o x) (prepare c' o x)).
  { intros [T fs] I. rewrite Forall_forall in F. split; [reflexivity|]. split; [reflexivity|]. intros p cn path g. cbn [prepare po_render]. apply (F _ I). eapply Fs; eauto. }
  clear - Ft. induction xs as [|x xs IH]; constructor; [apply Ft; left; auto|]. apply IH. intros y I. apply Ft. right. auto.
Qed.
Lemma render_like : (forall f, like_f f) /\ (forall t, like_t t) /\ (forall x, like_c x).
Proof.
  apply (ir_mutind like_f like_t like_c).
  - intros k d dp l r t IH Sh p cn path g. rewrite !ts_field_eq. specialize (IH Sh p cn (path +++ "_" +++ k) g). unfold res_like3 in *.
    destruct (ts_type c o t p cn _ g) as [[[ds e] u]|e], (ts_type c' o t p cn _ g) as [[[ds' e'] u']|e']; try contradiction; auto.
    destruct IH as (A & B & ->). split; auto. split; auto. apply line_like. auto.
  - intros _ p cn path g. cbn. auto.
  - intros n _ p cn path g. cbn. auto.
  - intros sc (f0 & (T & n & Fo) & Sh) p cn path g. cbn [ts_type res_like3]. split; auto. split; auto. apply scalar_like. intros x ->.
    inversion Sh; subst. eapply ns_field; eauto.
  - intros xs F (f0 & Fo & Sh) p cn path g. rewrite !ts_type_complex. inversion Sh as [| | |? ? _ _ Cs]; subst.
    pose proof (collection_like p _ _ path g (prepared_like _ _ Cs F)) as K. unfold res_like, res_like3 in *.
    destruct (ts_collection o p (List.map (prepare c o) xs) path g) as [[ds u]|e], (ts_collection o p (List.map (prepare c' o) xs) path g) as [[ds' u']|e']; try contradiction; auto.
    destruct K as [A ->]. auto.
  - intros n fs F Sh p cn path g. cbn [irc_fields] in Sh. rewrite !ts_complex_eq.
    assert (Ft : Forall (fun f => match f with IRField _ _ _ _ _ t => exists f0, (exists c n, field_of s c n f0) /\ ty_shape s f0 t end) fs).
    { inversion Sh as [es So Nd Ff Ty]; subst. apply Forall_forall. intros x I. apply in_map_iff in I.
      destruct I as ([[k f] t] & <- & I). cbn. exists f. split; [eapply Ff|eapply Ty]; eauto. }
    clear Sh. generalize 0.
    assert (K : forall j g defs defs' props props', Forall2 D defs defs' -> Forall2 D props props' ->
      res_like (t_fields c o p cn path j fs g defs props) (t_fields c' o p cn path j fs g defs' props')).
    { induction F as [|f fs Hf F IH]; intros j g0 defs defs' props props' A B; cbn [t_fields].
      - unfold res_like. split; auto. apply Forall2_app; auto. constructor; auto.
        do 4 (apply differs_app; auto). apply differs_app; auto. apply differs_join; auto.
      - inversion Ft as [|? ? Ff Ft']; subst. destruct f as [k d dp l r t]. specialize (Hf Ff (j :: p) cn path g0). unfold res_like3 in Hf.
        destruct (ts_field c o _ _ _ _ _) as [[[ds m] u]|e], (ts_field c' o _ _ _ _ _) as [[[ds' m'] u']|e']; try contradiction; auto.
        destruct Hf as (X & Y & ->). apply IH; auto; apply Forall2_app; auto. }
    intros j. apply K; auto.
Qed.

Lemma variables_like vs : forall g,
  match variable_types c s vs g, variable_types c' s vs g with
  | Ok (r, g1), Ok (r', g1') => Forall2 (fun x y => fst x = fst y /\ D (snd x) (snd y)) r r' /\ g1 = g1'
  | Err e, Err e' => e = e'
  | _, _ => False
  end.
Proof.
  induction vs as [|v vs IH]; intros g; cbn [variable_types]; auto.
  assert (K : match variable_type_name c s v g, variable_type_name c' s v g with
    | Ok (t, g1), Ok (t', g1') => D t t' /\ g1 = g1' | Err e, Err e' => e = e' | _, _ => False end).
  { unfold variable_type_name. destruct (v_type v); auto. destruct (get_type s name) as [t|] eqn:E; auto. destruct (st_def t) eqn:Et; auto. split; auto.
    apply differs_at. apply (op_scalar s c c' name). eapply ns_type; eauto. }
  destruct (variable_type_name c s v g) as [[t g1]|e], (variable_type_name c' s v g) as [[t' g1']|e']; try contradiction; auto.
  destruct K as [Kt ->]. specialize (IH g1'). destruct (variable_types c s vs g1') as [[r g2]|e], (variable_types c' s vs g1') as [[r' g2']|e']; try contradiction; auto.
  destruct IH as [A ->]. split; auto. constructor; auto. split; auto. cbn [snd]. apply differs_prop. auto.
Qed.
Lemma sort_like {A B} (R : A -> B -> Prop) (k : A -> string) (k' : B -> string) l l' : Forall2 (fun x y => k x = k' y /\ R x y) l l' ->
  Forall2 (fun x y => k x = k' y /\ R x y) (sort_by k l) (sort_by k' l').
Proof.
  unfold sort_by. induction 1 as [|x y l l' [E H] F IH]; cbn [fold_right]; [constructor|].
  revert IH. generalize (fold_right (insert_by k) [] l) (fold_right (insert_by k') [] l'). intros p q G.
  induction G as [|u v a b [E2 H2] G IG]; cbn [insert_by]; [constructor; [auto|constructor]|].
  rewrite E, E2. destruct (str_leb (k' y) (k' v)); constructor; auto.
Qed.
Lemma import_like node g : D (compile_imports c o node g) (compile_imports c' o node g).
Proof.
  assert (Fm : forall m z, " } from " +++ dq +++ m +++ dq +++ z = " } " +++ from_module m +++ z).
  { intros m z. unfold from_module. rewrite !sapp_assoc. reflexivity. }
  unfold compile_imports. destruct g as [|x g]; rewrite !Fm.
  - do 3 (apply differs_app; auto). apply differs_app; auto. apply differs_at, op_documents.
  - do 3 (apply differs_app; auto). apply differs_app; [apply differs_at, op_documents|]. do 5 (apply differs_app; auto). apply differs_app; auto.
    apply differs_at, op_globals.
Qed.
Lemma compile_like P op : coll_shape s P (op_collection op) ->
  match compile_ir c o s op, compile_ir c' o s op with
  | Ok a, Ok b => D (co_contents a) (co_contents b) /\ co_globals a = co_globals b
  | Err e, Err e' => e = e'
  | _, _ => False
  end.
Proof.
  intros Sh. unfold compile_ir.
  assert (F : Forall like_c (op_collection op)) by (apply Forall_forall; intros; apply render_like).
  pose proof (collection_like [0] _ _ (op_name op) [] (prepared_like P _ Sh F)) as K. unfold res_like in K.
  destruct (ts_collection o [0] (List.map (prepare c o) (op_collection op)) (op_name op) []) as [[ds g]|e],
    (ts_collection o [0] (List.map (prepare c' o) (op_collection op)) (op_name op) []) as [[ds' g']|e']; try contradiction; auto.
  destruct K as [Kd ->].
  assert (Vs : match variables_definition c s op g', variables_definition c' s op g' with
    | Ok (None, a), Ok (None, b) => a = b
    | Ok (Some (n, t), a), Ok (Some (n', t'), b) => n = n' /\ D t t' /\ a = b
    | Err e, Err e' => e = e' | _, _ => False end).
  { unfold variables_definition. destruct (op_variables op) as [vs|]; auto. pose proof (variables_like vs g') as K.
    destruct (variable_types c s vs g') as [[r a]|e], (variable_types c' s vs g') as [[r' b]|e']; try contradiction; auto. destruct K as [K ->].
    split; auto. split; auto. do 6 (apply differs_app; auto). apply differs_app; auto. apply differs_join.
    assert (K2 : Forall2 (fun x y => v_name (fst x) = v_name (fst y) /\ (fst x = fst y /\ D (snd x) (snd y))) r r').
    { clear - K. induction K as [|x y l l' [E H] F IH]; constructor; auto. rewrite E. auto. }
    apply (sort_like _ (fun x : variable * string => v_name (fst x)) (fun x : variable * string => v_name (fst x))) in K2.
    revert K2. generalize (sort_by (fun x : variable * string => v_name (fst x)) r) (sort_by (fun x : variable * string => v_name (fst x)) r').
    induction 1 as [|x y l l' (_ & E & H) Fr IH]; cbn [List.map]; constructor; auto. unfold variable_line. rewrite E.
    destruct (v_mod (fst y)); do 3 (apply differs_app; auto); apply differs_app; auto. }
  destruct (variables_definition c s op g') as [[[[n t]|] a]|e], (variables_definition c' s op g') as [[[[n' t']|] b]|e']; try contradiction; auto.
  - destruct Vs as (-> & Dt & ->). cbn [co_contents co_globals]. split; auto.
    apply differs_app; auto. apply differs_app; [apply import_like|]. apply differs_app; [apply differs_join; auto|apply differs_app; auto].
  - subst b. cbn [co_contents co_globals]. split; auto.
    apply differs_app; auto. apply differs_app; [apply import_like|]. apply differs_app; [apply differs_join; auto|apply differs_app; auto].
Qed.

(** ** The file of globals *)
Hypothesis o_ok : order_ok o.
Hypothesis in_ok : inputs_consistent s.
Lemma input_like n t nm fs i : get_type s n = Some t -> st_def t = TInputObject nm fs ->
  match input_def c o [i; 3] nm fs, input_def c' o [i; 3] nm fs with Ok a, Ok b => D a b | Err e, Err e' => e = e' | _, _ => False end.
Proof.
  intros G E. unfold input_def.
  assert (K : forall l, (forall x, In x l -> In x fs) ->
    match collect_res (List.map (input_field_line c) l), collect_res (List.map (input_field_line c') l) with
    | Ok a, Ok b => Forall2 D a b | Err e, Err e' => e = e' | _, _ => False end).
  { induction l as [|[k f] l IH]; intros Il; cbn [List.map collect_res]; auto.
    assert (L : match input_field_line c (k, f), input_field_line c' (k, f) with Ok a, Ok b => D a b | Err e, Err e' => e = e' | _, _ => False end).
    { unfold input_field_line, input_field_type. destruct (ft_def (sf_type f)) as [| | | |sc| |] eqn:Ed; auto.
      assert (Sl : D (compile_scalar c sc) (compile_scalar c' sc)).
      { apply (scalar_like sc). intros x ->. eapply ns_input; eauto. apply Il. left. auto. }
      destruct (ft_mod (sf_type f)); repeat (apply differs_app; auto). }
    destruct (input_field_line c (k, f)) as [a|e], (input_field_line c' (k, f)) as [b|e']; try contradiction; auto.
    assert (Il' : forall x, In x l -> In x fs) by (intros x I; apply Il; right; auto). specialize (IH Il').
    destruct (collect_res (List.map (input_field_line c) l)), (collect_res (List.map (input_field_line c') l)); try contradiction; auto. }
  assert (Ip : forall x, In x (sort_by fst (o [i; 3] _ fs)) -> In x fs).
  { intros x I. apply (Permutation_in _ (Permutation_sym (sort_by_perm _ _))) in I. apply (Permutation_in _ (Permutation_sym (o_ok _ _ _)) I). }
  specialize (K _ Ip). destruct (collect_res _) as [a|e], (collect_res _) as [b|e']; try contradiction; auto.
  do 4 (apply differs_app; auto). apply differs_app; auto. apply differs_join. auto.
Qed.
Lemma globals_like fuel names :
  match compile_globals fuel c o s names, compile_globals fuel c' o s names with
  | Some (Ok a), Some (Ok b) => D a b
  | Some (Err e), Some (Err e') => e = e'
  | None, None => True
  | _, _ => False
  end.
Proof.
  unfold compile_globals, global_defs. fold (seed_map s o fuel names). destruct (seed_map s o fuel names) as [[m|e]|] eqn:Es; auto.
  destruct (seed_ok s o o_ok in_ok fuel names m Es) as [Nd H].
  assert (K : forall l, (forall i n t, In (i, (n, t)) l -> get_type s n = Some t) ->
    match collect_res (List.map (global_def c o) l), collect_res (List.map (global_def c' o) l) with
    | Ok a, Ok b => Forall2 D a b | Err e, Err e' => e = e' | _, _ => False end).
  { induction l as [|[i [n t]] l IH]; intros Il; cbn [List.map collect_res]; auto.
    assert (L : match global_def c o (i, (n, t)), global_def c' o (i, (n, t)) with Ok a, Ok b => D a b | Err e, Err e' => e = e' | _, _ => False end).
    { cbn [global_def]. destruct (st_def t) eqn:Et; auto. eapply input_like; eauto. eapply Il. left. auto. }
    destruct (global_def c o (i, (n, t))) as [a|e], (global_def c' o (i, (n, t))) as [b|e']; try contradiction; auto.
    assert (Il' : forall i n t, In (i, (n, t)) l -> get_type s n = Some t) by (intros i0 n0 t0 I; eapply Il; right; eauto). specialize (IH Il').
    destruct (collect_res (List.map (global_def c o) l)), (collect_res (List.map (global_def c' o) l)); try contradiction; auto. }
  assert (Ip : forall i n t, In (i, (n, t)) (index_list (sort_by fst (o [2] _ m))) -> get_type s n = Some t).
  { intros i n t I. apply (in_map snd) in I. rewrite index_list_map_snd in I. cbn [snd] in I.
    apply (Permutation_in _ (Permutation_sym (sort_by_perm _ _))) in I. apply (Permutation_in _ (Permutation_sym (o_ok _ _ _))) in I.
    apply H. apply In_aget; auto. }
  specialize (K _ Ip). destruct (collect_res _) as [a|e], (collect_res _) as [b|e']; try contradiction; auto.
  apply differs_app; auto. apply differs_join. auto.
Qed.
End Render.
