(** Lemmas about SpecLayout.v: compilation does not look at positions, arguments, directives and default values. *)
From Verif Require Import SpecLayout GraphqlFacts ImportFacts GlayoutFacts CliFacts ProcFacts.
From Coq Require Import Lia Permutation.

Definition still_w (w : warning) : warning :=
  match w with
  | WOverFragmentNarrowing _ l t => WOverFragmentNarrowing start_pos l t
  | WDeprecatedFieldUse _ a b => WDeprecatedFieldUse start_pos a b
  end.
Definition still_v (e : var_error) : var_error :=
  match e with
  | VUnknownCustomType n _ => VUnknownCustomType n start_pos
  | VUnprocessable n _ => VUnprocessable n start_pos
  | VListOfList n _ => VListOfList n start_pos
  end.
Definition still_e (e : ir_error) : ir_error :=
  match e with
  | ESelectionSetAsOperationUnsupported _ => ESelectionSetAsOperationUnsupported start_pos
  | EUnknownFragment n _ l => EUnknownFragment n start_pos l
  | EMissingTypeConditionOnInlineFragment _ => EMissingTypeConditionOnInlineFragment start_pos
  | ESelectionSetOnWrongType n _ => ESelectionSetOnWrongType n start_pos
  | EMissingSelectionSetOnType n _ => EMissingSelectionSetOnType n start_pos
  | EUnknownField a b _ l => EUnknownField a b start_pos l
  | EVariable v => EVariable (still_v v)
  | e => e
  end.
Notation still_ws := (List.map still_w).
Notation still_es := (List.map still_e).
Definition still (r : cresult) : cresult := let '(p, ws, es) := r in (p, still_ws ws, still_es es).
Notation stills := (option_map still).
Definition essences (m : amap string fragdef) : amap string fragdef := List.map (fun x => (fst x, essence_frag (snd x))) m.

Lemma essence_aget m m' n : essences m = essences m' ->
  match aget n m, aget n m' with
  | Some f, Some f' => essence_frag f = essence_frag f'
  | None, None => True
  | _, _ => False
  end.
Proof.
  revert m'. induction m as [|[k f] m IH]; intros [|[k' f'] m'] E; try discriminate; [exact I|].
  unfold essences in E. cbn [List.map fst snd] in E. injection E as Ek Ef1 Ef2 Ef3 E. subst k'.
  cbn [aget]. destruct (eqb n k); [unfold essence_frag; congruence|]. apply IH. exact E.
Qed.
Lemma essence_keys m m' : essences m = essences m' -> akeys m = akeys m'.
Proof.
  revert m'. induction m as [|[k f] m IH]; intros [|[k' f'] m'] E; try discriminate; [reflexivity|].
  unfold essences in E. cbn [List.map fst snd] in E. injection E as Ek Ef1 Ef2 Ef3 E. subst k'.
  cbn. f_equal. apply IH. exact E.
Qed.
Lemma essence_aset n f f' m m' : essence_frag f = essence_frag f' -> essences m = essences m' ->
  essences (aset n f m) = essences (aset n f' m').
Proof.
  intros Ef. revert m'. induction m as [|[k g] m IH]; intros [|[k' g'] m'] E; try discriminate.
  - cbn. rewrite Ef. reflexivity.
  - unfold essences in E. cbn [List.map fst snd] in E. injection E as Ek Ef1 Ef2 Ef3 E. subst k'.
    assert (Eg : essence_frag g = essence_frag g') by (unfold essence_frag; congruence).
    cbn [aset]. destruct (eqb n k); unfold essences; cbn [List.map fst snd].
    + rewrite Ef. f_equal. exact E.
    + rewrite Eg. f_equal. apply IH. exact E.
Qed.

Lemma new_still s t p p' :
  match new_ctrav s t p, new_ctrav s t p' with
  | Ok a, Ok b => a = b
  | Err a, Err b => still_e a = still_e b
  | _, _ => False
  end.
Proof.
  unfold new_ctrav. destruct (get_type s t) as [ty|]; auto. destruct (get_fields_lookup (st_def ty)); auto.
  destruct (initial_objs t (st_def ty)); auto.
Qed.

Section Collect.
  Variables (s : schema) (dep : bool) (fr fr' : amap string fragdef) (o : order).
  Hypothesis same : essences fr = essences fr'.
  Notation cx := {| cx_schema := s; cx_deprecations := dep; cx_frags := fr; cx_order := o |}.
  Notation cx' := {| cx_schema := s; cx_deprecations := dep; cx_frags := fr'; cx_order := o |}.
  Notation ess := (List.map essence).
  Definition moved (rec rec' : collector) : Prop := forall pth l l' par js,
    ess l = ess l' -> stills (rec pth l par js) = stills (rec' pth l' par js).

  Lemma stills_inv (r r' : option cresult) : stills r = stills r' ->
    match r, r' with
    | Some (q, ws, es), Some (q', ws', es') => q = q' /\ still_ws ws = still_ws ws' /\ still_es es = still_es es'
    | None, None => True
    | _, _ => False
    end.
  Proof. destruct r as [[[q ws] es]|], r' as [[[q' ws'] es']|]; cbn; intros E; try discriminate; [injection E|]; auto. Qed.

  Lemma insert_moved rec rec' pth p p' al n sub sub' par js : moved rec rec' -> ess sub = ess sub' ->
    stills (insert_field rec cx pth p al n sub par js) = stills (insert_field rec' cx' pth p' al n sub' par js).
  Proof.
    intros A E. unfold insert_field. cbn [cx_schema cx_deprecations cx_order].
    destruct (aget n (ct_lookup par)) as [f|]; [|reflexivity].
    destruct sub as [|x sub], sub' as [|x' sub']; try discriminate; destruct (fdef_is_complex (ft_def (sf_type f))); try reflexivity.
    - destruct (insert_all _ _ _ _ _ _ _) as [tr [e|]]; [reflexivity|]. destruct (dep && sf_deprecated f && is_local js); reflexivity.
    - pose proof (new_still s (ft_name (sf_type f)) p p') as N.
      destruct (new_ctrav s (ft_name (sf_type f)) p) as [sp|e], (new_ctrav s (ft_name (sf_type f)) p') as [sp'|e']; try contradiction; [subst sp'|cbn; rewrite N; reflexivity].
      pose proof (stills_inv _ _ (A (2 :: pth) _ _ sp js E)) as R.
      destruct (rec (2 :: pth) (x :: sub) sp js) as [[[q ws] es]|], (rec' (2 :: pth) (x' :: sub') sp js) as [[[q' ws'] es']|]; try contradiction; [|reflexivity].
      destruct R as (-> & Ew & Ee). destruct es as [|e es], es' as [|e' es']; try discriminate.
      + destruct (insert_all _ _ _ _ _ _ _) as [tr [e|]]; cbn; [rewrite Ew; reflexivity|]. rewrite !map_app, Ew.
        destruct (dep && sf_deprecated f && is_local js); reflexivity.
      + cbn [option_map still]. rewrite Ew, Ee. reflexivity.
  Qed.
  Definition still_sum (r : cresult + cresult) : cresult + cresult := match r with inl a => inl (still a) | inr a => inr (still a) end.
  Lemma spread_moved rec rec' pth tn p p' sub sub' par js : moved rec rec' -> ess sub = ess sub' ->
    option_map still_sum (spread_into rec cx pth tn p sub par js) = option_map still_sum (spread_into rec' cx' pth tn p' sub' par js).
  Proof.
    intros A E. unfold spread_into, clone_for_type_spread. cbn [cx_schema cx_order].
    pose proof (new_still s tn p p') as N. destruct (new_ctrav s tn p) as [b|e], (new_ctrav s tn p') as [b'|e']; try contradiction.
    - subst b'. set (objs := filter (fun x => amem (fst x) (ct_objs par)) (ct_objs b)).
      pose proof (stills_inv _ _ (A (1 :: pth) _ _ {| ct_name := ct_name b; ct_lookup := ct_lookup b; ct_objs := objs |} js E)) as R.
      destruct (rec _ _ _ _) as [[[q ws] es]|], (rec' _ _ _ _) as [[[q' ws'] es']|]; try contradiction; [|reflexivity].
      destruct R as (-> & Ew & Ee). destruct es as [|e es], es' as [|e' es']; try discriminate.
      + destruct (extend_ct o (2 :: pth) par q') as [r [e|]]; cbn; rewrite !map_app, Ew; destruct (negb (is_fully_jumped js) && _); reflexivity.
      + cbn [option_map still_sum still]. rewrite !map_app, Ew. destruct (negb (is_fully_jumped js) && _), (is_local js); cbn [List.map still_w] in *; try rewrite Ee; reflexivity.
    - cbn. destruct (is_local js); cbn; [rewrite N|]; reflexivity.
  Qed.
  Lemma loop_moved rec rec' : moved rec rec' -> forall l l' pth i par js ws ws' errs errs',
    ess l = ess l' -> still_ws ws = still_ws ws' -> still_es errs = still_es errs' ->
    stills (collect_loop rec cx pth i l par js ws errs) = stills (collect_loop rec' cx' pth i l' par js ws' errs').
  Proof.
    intros A. induction l as [|x l IH]; intros [|x' l'] pth i par js ws ws' errs errs' E Ew Ee; try discriminate; [cbn; rewrite Ew, Ee; reflexivity|].
    cbn [List.map] in E. assert (El : ess l = ess l') by (injection E; auto). assert (Ex : essence x = essence x') by (injection E; auto). clear E.
    assert (Go : forall r r' : option (cresult + cresult), option_map still_sum r = option_map still_sum r' ->
      stills (match r with None => None | Some (inl (p1, w1, e1)) => collect_loop rec cx pth (S i) l p1 js (ws ++ w1) (errs ++ e1)
              | Some (inr (p1, w1, e1)) => Some (p1, ws ++ w1, e1) end) =
      stills (match r' with None => None | Some (inl (p1, w1, e1)) => collect_loop rec' cx' pth (S i) l' p1 js (ws' ++ w1) (errs' ++ e1)
              | Some (inr (p1, w1, e1)) => Some (p1, ws' ++ w1, e1) end)).
    { intros [[[[q w] e]|[[q w] e]]|] [[[[q' w'] e']|[[q' w'] e']]|] R; try discriminate; [| |reflexivity]; cbn in R; injection R as -> Rw Re.
      - apply IH; auto; rewrite !map_app; congruence.
      - cbn. rewrite !map_app. congruence. }
    destruct x as [p al n a d sub|p n d|p c d sub], x' as [p' al' n' a' d' sub'|p' n' d'|p' c' d' sub']; try discriminate;
      cbn [essence] in Ex; cbn [collect_loop].
    - injection Ex as -> -> Es. apply Go. pose proof (insert_moved rec rec' (i :: pth) p p' al' n' sub sub' par js A Es) as R.
      destruct (insert_field rec _ _ _ _ _ _ _ _) as [r|], (insert_field rec' _ _ _ _ _ _ _ _) as [r'|]; cbn in *; try discriminate; [injection R as ->|]; reflexivity.
    - injection Ex as ->. cbn [cx_frags]. pose proof (essence_aget _ _ n' same) as Ha.
      destruct (aget n' fr) as [f|], (aget n' fr') as [f'|]; try contradiction.
      + injection Ha as E1 E2 E3. rewrite E2. apply Go. apply spread_moved; auto.
      + cbn [cx_order]. rewrite (essence_keys _ _ same). refine (Go (Some (inl (_, _, _))) (Some (inl (_, _, _))) _). reflexivity.
    - injection Ex as -> Es. destruct c' as [c|]; [|refine (Go (Some (inl (_, _, _))) (Some (inl (_, _, _))) _); reflexivity].
      apply Go. apply spread_moved; auto.
  Qed.
  Lemma collect_moved fuel : moved (collect fuel cx) (collect fuel cx').
  Proof. induction fuel as [|k IH]; intros pth l l' par js E; [reflexivity|]. cbn [collect]. apply loop_moved; auto. Qed.

  Lemma vars_moved vs vs' : List.map essence_var vs = List.map essence_var vs' ->
    match try_build_variable_ir s vs, try_build_variable_ir s vs' with
    | Ok a, Ok b => a = b
    | Err a, Err b => still_v a = still_v b
    | _, _ => False
    end.
  Proof.
    intros E.
    assert (One : forall v v', essence_var v = essence_var v' -> match build_variable s v, build_variable s v' with
      | Ok a, Ok b => a = b | Err a, Err b => still_v a = still_v b | _, _ => False end).
    { intros v v' Ev. injection Ev as En Et. unfold build_variable.
      assert (U : match unwrap_var_def v, unwrap_var_def v' with Ok a, Ok b => a = b | Err a, Err b => still_v a = still_v b | _, _ => False end).
      { unfold unwrap_var_def. rewrite En, Et. destruct (vd_type v') as [n|t|t]; auto; destruct t as [n|t|t]; cbn; auto; destruct t as [n|t|t]; cbn; rewrite ?En; auto. all: destruct t; cbn; rewrite ?En; auto. }
      destruct (unwrap_var_def v) as [[m g]|], (unwrap_var_def v') as [[m' g']|]; try contradiction; auto. injection U as -> ->.
      assert (T : match vtype_of_name s g' (vd_pos v), vtype_of_name s g' (vd_pos v') with Ok a, Ok b => a = b | Err a, Err b => still_v a = still_v b | _, _ => False end).
      { unfold vtype_of_name. repeat match goal with |- context [if ?b then _ else _] => destruct b; [reflexivity|] end. destruct (get_type s g'); reflexivity. }
      destruct (vtype_of_name s g' (vd_pos v)), (vtype_of_name s g' (vd_pos v')); try contradiction; subst; auto. rewrite En. reflexivity. }
    assert (All : match collect_res (List.map (build_variable s) vs), collect_res (List.map (build_variable s) vs') with
      | Ok a, Ok b => a = b | Err a, Err b => still_v a = still_v b | _, _ => False end).
    { revert vs' E. induction vs as [|v vs IH]; intros [|v' vs'] E; try discriminate; [reflexivity|].
      cbn [List.map] in E. assert (Ev : essence_var v = essence_var v') by exact (f_equal (List.hd (essence_var v)) E).
      assert (Es : List.map essence_var vs = List.map essence_var vs') by exact (f_equal (@List.tl _) E). specialize (One _ _ Ev). specialize (IH _ Es). cbn [List.map collect_res].
      destruct (build_variable s v), (build_variable s v'); try contradiction; auto. subst.
      destruct (collect_res (List.map (build_variable s) vs)), (collect_res (List.map (build_variable s) vs')); try contradiction; subst; auto. }
    unfold try_build_variable_ir. destruct vs as [|v vs], vs' as [|v' vs']; try discriminate; [reflexivity|].
    destruct (collect_res _), (collect_res _); try contradiction; subst; auto.
  Qed.
  Definition still_ir (r : ir_result) : ir_result :=
    (still_ws (fst r), match snd r with Ok op => Ok op | Err es => Err (still_es es) end).
  Lemma compile_moved fuel d d' : essence_def d = essence_def d' ->
    option_map still_ir (compile_definition fuel cx d) = option_map still_ir (compile_definition fuel cx' d').
  Proof.
    intros E. destruct d as [[p l|k p n vs ds l]|f], d' as [[p' l'|k' p' n' vs' ds' l']|f']; try discriminate; cbn [essence_def] in E.
    - reflexivity.
    - injection E as -> -> Ev El. cbn [compile_definition build_from_operation cx_schema cx_order].
      pose proof (new_still s (op_type_name k') p p') as N.
      destruct (new_ctrav s (op_type_name k') p) as [par|e], (new_ctrav s (op_type_name k') p') as [par'|e']; try contradiction; [subst par'|unfold still_ir; cbn [option_map fst snd List.map]; rewrite N; reflexivity].
      pose proof (stills_inv _ _ (collect_moved fuel [0] l l' par RootLocal El)) as R.
      destruct (collect fuel _ [0] l par RootLocal) as [[[q ws] es]|], (collect fuel _ [0] l' par RootLocal) as [[[q' ws'] es']|]; try contradiction; [|reflexivity].
      destruct R as (-> & Ew & Ee). destruct es as [|e es], es' as [|e' es']; try discriminate; [|unfold still_ir; cbn [option_map fst snd]; rewrite Ew, Ee; reflexivity].
      destruct (collection_of o [1] q') as [cs|e]; [|unfold still_ir; cbn [option_map fst snd]; rewrite Ew; reflexivity].
      pose proof (vars_moved vs vs' Ev) as V. destruct (try_build_variable_ir s vs), (try_build_variable_ir s vs'); try contradiction.
      + subst. unfold still_ir. cbn [option_map fst snd]. rewrite Ew. reflexivity.
      + unfold still_ir. cbn [option_map fst snd List.map still_e]. rewrite Ew, V. reflexivity.
    - injection E as E1 E2 E3. cbn [compile_definition cx_schema cx_order]. rewrite E1, E2.
      pose proof (new_still s (fr_cond f') (fr_pos f) (fr_pos f')) as N.
      destruct (new_ctrav s (fr_cond f') (fr_pos f)) as [par|e], (new_ctrav s (fr_cond f') (fr_pos f')) as [par'|e']; try contradiction; [subst par'|unfold still_ir; cbn [option_map fst snd List.map]; rewrite N; reflexivity].
      pose proof (stills_inv _ _ (collect_moved fuel [0] _ _ par RootLocal E3)) as R.
      destruct (collect fuel _ [0] (fr_sels f) par RootLocal) as [[[q ws] es]|], (collect fuel _ [0] (fr_sels f') par RootLocal) as [[[q' ws'] es']|]; try contradiction; [|reflexivity].
      destruct R as (-> & Ew & Ee). destruct es as [|e es], es' as [|e' es']; try discriminate; [|unfold still_ir; cbn [option_map fst snd]; rewrite Ew, Ee; reflexivity].
      destruct (collection_of o [1] q') as [cs|e]; unfold still_ir; cbn [option_map fst snd]; rewrite Ew; reflexivity.
  Qed.
End Collect.

(** ** Messages *)
Lemma same_message_refl m : same_message m m.
Proof. repeat split. unfold same_place. destruct (ms_source m) as [[f [l|]]|]; auto. Qed.
Lemma located_same lv t file c c' p p' h : same_message (located_message lv t file c p h) (located_message lv t file c' p' h).
Proof. repeat split. cbn. destruct h; auto. Qed.
Lemma warning_same c c' file w w' : still_w w = still_w w' -> same_message (warning_message c file w) (warning_message c' file w').
Proof. destruct w, w'; cbn [still_w]; intros E; try discriminate; injection E as -> ->; apply located_same. Qed.
Lemma error_same sim c c' file e e' : still_e e = still_e e' -> same_message (ir_error_message sim c file e) (ir_error_message sim c' file e').
Proof.
  destruct e as [p|n p l|p|n p|n p|a n p l|v|n|n|a b|a b], e' as [p'|n' p' l'|p'|n' p'|n' p'|a' n' p' l'|v'|n'|n'|a' b'|a' b'];
    cbn [still_e]; intros E; try discriminate; cbn [ir_error_message];
    try (assert (n = n') as -> by congruence); try (assert (a = a') as -> by congruence); try (assert (b = b') as -> by congruence);
    try (assert (l = l') as -> by congruence); try apply located_same; try apply same_message_refl.
  assert (Ev : still_v v = still_v v') by congruence. destruct v, v'; cbn in Ev; try discriminate; injection Ev as ->; apply located_same.
Qed.
Lemma map_same {A B} (k : A -> B) (f f' : A -> message) l l' : (forall x y, k x = k y -> same_message (f x) (f' y)) -> List.map k l = List.map k l' ->
  Forall2 same_message (List.map f l) (List.map f' l').
Proof.
  intros H. revert l'. induction l as [|x l IH]; intros [|y l'] E; try discriminate; [constructor|]. cbn in *. injection E as Ex El. constructor; auto.
Qed.

(** ** Imports *)
Lemma import_lines_done rec e f c file n ls im ms : import_lines ls [] -> imp_loop rec e f c file n ls im ms = Done (im, ms).
Proof.
  intros H. remember [] as is eqn:Ei. revert n. induction H as [|l ls N|l ls is L N H IH|l ls is I H IH]; intros n; try discriminate; cbn [imp_loop].
  - reflexivity.
  - destruct (line_kinds c (path_pop file) l) as [K A|A B C D|A B C D E|q t A B C D E F G]; try contradiction. rewrite A, B, C. reflexivity.
  - destruct (line_kinds c (path_pop file) l) as [K A|A B C D|A B C D E|q t A B C D E F G]; try contradiction.
    + destruct K as [K|(K1 & K2 & K3)]; [rewrite K|rewrite K1, K2, K3]; auto.
    + exfalso. apply N. destruct E as (r & -> & _). unfold import_line_like. eauto.
    + exfalso. apply N. destruct E as (r & -> & _). unfold import_line_like. eauto.
Qed.
Definition import_step (rec : walker) (e : env) (f : fs) (c : cconfig) (file : string) (n : nat) (l : string) (ls : list string)
           (im : imports) (ms : list message) : outcome (imports * list message) :=
  let loc := loc_line_column (n + 1) l (String.length import_start) in
  match import_target c l (path_pop file) with
  | None => Panics
  | Some target =>
      match read_file e f target with
      | Err m => imp_loop rec e f c file (S n) ls im (ms ++ [with_source m file (Some loc)])
      | Ok other =>
          match rec target other im ms with
          | Done (im', ms') => imp_loop rec e f c file (S n) ls (aset (P target) (other, loc) im') ms'
          | Panics => Panics
          | Diverges => Diverges
          end
      end
  end.
Lemma import_lines_next rec e f c file l is ls im ms : import_lines ls (l :: is) -> forall n,
  exists n' ls', import_lines ls' is /\ imp_loop rec e f c file n ls im ms = import_step rec e f c file n' l ls' im ms.
Proof.
  intros H. remember (l :: is) as L eqn:Ei. induction H as [|x ls N|x ls is' Lx N H IH|x ls is' I H IH]; intros n; try discriminate.
  - subst is'. destruct (IH eq_refl (S n)) as (n' & ls' & H' & E). exists n', ls'. split; auto. rewrite <- E. cbn [imp_loop].
    destruct (line_kinds c (path_pop file) x) as [K A|A B C D|A B C D E'|q t A B C D E' F G]; try contradiction.
    + destruct K as [K|(K1 & K2 & K3)]; [rewrite K|rewrite K1, K2, K3]; auto.
    + exfalso. apply N. destruct E' as (r & -> & _). unfold import_line_like. eauto.
    + exfalso. apply N. destruct E' as (r & -> & _). unfold import_line_like. eauto.
  - injection Ei as -> ->. exists n, ls. split; auto. cbn [imp_loop]. destruct I as [r ->].
    assert (S1 : starts_with import_start (import_mark +++ r) = true) by (apply starts_with_spec; rewrite <- import_mark_start; eauto).
    assert (S2 : is_empty (import_mark +++ r) || is_empty (trim (import_mark +++ r)) = false).
    { apply not_true_iff_false. intros E. apply blank_spec in E. eapply blank_hash. exact E. }
    rewrite S1, S2. reflexivity.
Qed.

Section Files.
  Variables (e : env) (f f' : fs) (c : cconfig).
  Notation alike := (same_meaning (env_parse e)).
  Hypothesis files : same_files alike f f'.
  Definition same_import (x y : rpath * (string * location)) : Prop :=
    fst x = fst y /\ alike (fst (snd x)) (fst (snd y)) /\ lo_help (snd (snd x)) = lo_help (snd (snd y)).
  Notation same_im := (Forall2 same_import).
  Notation same_ms := (Forall2 same_message).
  Definition same_out (r r' : outcome (imports * list message)) : Prop :=
    match r, r' with
    | Done (im, ms), Done (im', ms') => same_im im im' /\ same_ms ms ms'
    | Panics, Panics => True
    | Diverges, Diverges => True
    | _, _ => False
    end.
  Lemma aset_same k v v' im im' : same_im im im' -> alike (fst v) (fst v') -> lo_help (snd v) = lo_help (snd v') ->
    same_im (aset k v im) (aset k v' im').
  Proof.
    intros H Av Lv. induction H as [|[x [t l]] [x' [t' l']] im im' (Ex & At & El) H IH]; cbn [aset].
    - constructor; [|constructor]. repeat split; auto; apply Av.
    - cbn in Ex. subst x'. destruct (eqb k x).
      + constructor; auto. repeat split; auto; apply Av.
      + constructor; auto. repeat split; auto; apply At.
  Qed.
  Lemma read_same path : match read_file e f path, read_file e f' path with
    | Ok t, Ok t' => alike t t'
    | Err m, Err m' => m = m'
    | _, _ => False
    end.
  Proof. unfold read_file. pose proof (files (env_locate e path)) as H. destruct (f _), (f' _); try contradiction; auto. subst. reflexivity. Qed.
  Lemma loop_same rec rec' file : (forall t o o' im im' ms ms', alike o o' -> same_im im im' -> same_ms ms ms' -> same_out (rec t o im ms) (rec' t o' im' ms')) ->
    forall is ls ls' n n' im im' ms ms', import_lines ls is -> import_lines ls' is -> same_im im im' -> same_ms ms ms' ->
    same_out (imp_loop rec e f c file n ls im ms) (imp_loop rec' e f' c file n' ls' im' ms').
  Proof.
    intros R. induction is as [|l is IH]; intros ls ls' n n' im im' ms ms' H H' Hi Hm.
    - rewrite !import_lines_done by auto. cbn. auto.
    - destruct (import_lines_next rec e f c file l is ls im ms H n) as (k & r & Hr & ->).
      destruct (import_lines_next rec' e f' c file l is ls' im' ms' H' n') as (k' & r' & Hr' & ->).
      unfold import_step. destruct (import_target c l (path_pop file)) as [t|]; [|exact I].
      pose proof (read_same t) as Rd. destruct (read_file e f t) as [o|m], (read_file e f' t) as [o'|m']; try contradiction.
      + pose proof (R t o o' im im' ms ms' Rd Hi Hm) as Q. destruct (rec t o im ms) as [[im1 ms1]| |], (rec' t o' im' ms') as [[im1' ms1']| |]; try contradiction; auto.
        destruct Q as [Q1 Q2]. apply IH; auto. apply aset_same; auto.
      + subst m'. apply IH; auto. apply Forall2_app; auto. constructor; [|constructor]. repeat split.
  Qed.
  Lemma imports_same fuel : forall file t t' im im' ms ms', alike t t' -> same_im im im' -> same_ms ms ms' ->
    same_out (add_imports fuel e f c file t im ms) (add_imports fuel e f' c file t' im' ms').
  Proof.
    induction fuel as [|k IH]; intros file t t' im im' ms ms' A Hi Hm; [exact I|]. rewrite !add_imports_S.
    destruct A as [(is & I1 & I2) _]. eapply loop_same; eauto.
  Qed.

  Lemma file_same t t' path : alike t t' -> match parse_file e t path, parse_file e t' path with
    | Ok d, Ok d' => essence_def d = essence_def d'
    | Err m, Err m' => like_message (env_parse e) m m'
    | _, _ => False
    end.
  Proof.
    intros B. pose proof B as [_ A]. unfold parse_file. destruct (env_parse e t) as [ds|x] eqn:E, (env_parse e t') as [ds'|x'] eqn:E'; try contradiction.
    - destruct ds as [|d [|d2 ds]], ds' as [|d' [|d2' ds']]; try discriminate.
      + apply lm_same, same_message_refl.
      + cbn in A. congruence.
      + apply lm_same. repeat split.
    - eapply lm_parse; eauto.
  Qed.
  Lemma unzip im im' : same_im im im' -> exists z : list (rpath * ((string * location) * (string * location))),
    im = List.map (fun x => (fst x, fst (snd x))) z /\ im' = List.map (fun x => (fst x, snd (snd x))) z /\
    Forall (fun x => alike (fst (fst (snd x))) (fst (snd (snd x))) /\ lo_help (snd (fst (snd x))) = lo_help (snd (snd (snd x)))) z.
  Proof.
    induction 1 as [|[x v] [x' v'] im im' (Ex & At & El) H (z & -> & -> & F)]; [exists []; auto|].
    cbn in Ex. subst x'. exists ((x, (v, v')) :: z). repeat split; auto.
  Qed.
  Lemma foreign_same path fr fr' ms ms' x v v' : alike (fst v) (fst v') -> lo_help (snd v) = lo_help (snd v') -> essences fr = essences fr' -> same_ms ms ms' ->
    let r := foreign_step e path (fr, ms) (x, v) in let r' := foreign_step e path (fr', ms') (x, v') in
    essences (fst r) = essences (fst r') /\ same_ms (snd r) (snd r').
  Proof.
    destruct v as [t l], v' as [t' l']. cbn [fst snd]. intros A El Ef Em. unfold foreign_step.
    pose proof (file_same t t' (raw x) A) as P. destruct (parse_file e t (raw x)) as [[o|d]|m], (parse_file e t' (raw x)) as [[o'|d']|m']; try contradiction; auto.
    - cbn. split; auto. apply Forall2_app; auto. constructor; [|constructor]. repeat split.
    - destruct o; discriminate.
    - destruct o'; discriminate.
    - cbn [essence_def] in P. cbn [fst snd]. split; auto. assert (Eg : essence_frag d = essence_frag d') by congruence.
      replace (fr_name d') with (fr_name d) by (unfold essence_frag in Eg; congruence). apply essence_aset; auto.
  Qed.
  Lemma foreigns_same path im im' ms ms' : order_ok (env_order e path) -> by_keys (env_order e path) -> same_im im im' -> same_ms ms ms' ->
    let r := parse_foreign e path im ms in let r' := parse_foreign e path im' ms' in
    essences (fst r) = essences (fst r') /\ same_ms (snd r) (snd r').
  Proof.
    intros Ho Hk Hi Hm. destruct (unzip _ _ Hi) as (z & -> & -> & F). unfold parse_foreign. rewrite !Hk.
    assert (F' : Forall (fun x => alike (fst (fst (snd x))) (fst (snd (snd x))) /\ lo_help (snd (fst (snd x))) = lo_help (snd (snd (snd x)))) (env_order e path [0; 0] _ z)).
    { eapply Permutation_Forall; [apply Ho|exact F]. }
    clear F. revert F'. generalize (env_order e path [0; 0] _ z) as l. intros l F.
    assert (Go : forall fr fr' ms ms', essences fr = essences fr' -> same_ms ms ms' ->
      let r := fold_left (foreign_step e path) (List.map (fun x => (fst x, fst (snd x))) l) (fr, ms) in
      let r' := fold_left (foreign_step e path) (List.map (fun x => (fst x, snd (snd x))) l) (fr', ms') in
      essences (fst r) = essences (fst r') /\ same_ms (snd r) (snd r')); [|apply Go; auto].
    clear - F. induction l as [|[x [v v']] l IH]; intros fr fr' ms ms' Ef Hm; [cbn; auto|]. inversion F as [|y l' [A L] F']; subst.
    cbn [List.map fold_left fst snd] in *. pose proof (foreign_same path fr fr' ms ms' x v v' A L Ef Hm) as [G1 G2].
    destruct (foreign_step e path (fr, ms) (x, v)) as [fr1 ms1], (foreign_step e path (fr', ms') (x, v')) as [fr1' ms1']. apply IH; auto.
  Qed.
  Lemma import_lines_total ls : exists is, import_lines ls is.
  Proof.
    induction ls as [|l ls [is IH]]; [exists []; constructor|].
    destruct (starts_with import_start l) eqn:E.
    - exists (l :: is). apply il_import; auto. apply starts_with_spec in E. destruct E as [r ->]. exists r. rewrite import_mark_start. reflexivity.
    - assert (N : ~ import_line_like l).
      { intros [r ->]. assert (starts_with import_start (import_mark +++ r) = true); [apply starts_with_spec; rewrite <- import_mark_start; eauto|congruence]. }
      destruct (line_kinds c "" l) as [? ? ? ?|? ? ? ?|? B ? ? ?|q t ? B ? ? ? ? ?].
      + exists is. apply il_skip; auto.
      + exists []. apply il_stop; auto.
      + rewrite E in B. discriminate.
      + rewrite E in B. discriminate.
  Qed.
  Lemma alike_refl t : alike t t.
  Proof. split; [|destruct (env_parse e t); auto]. destruct (import_lines_total (lines t)) as [is I]. exists is. auto. Qed.
  Lemma same_like ms ms' : same_ms ms ms' -> Forall2 (like_message (env_parse e)) ms ms'.
  Proof. induction 1; constructor; auto. apply lm_same. auto. Qed.
  Lemma effect_files g g' : same_effect f f' g g' -> same_files alike g g'.
  Proof. intros H l. pose proof (files l) as F. destruct (H l) as [[-> ->]| ->]; auto. destruct (g' l); auto. apply alike_refl. Qed.
  Lemma write_same path t : let r := write_file e f path t in let r' := write_file e f' path t in
    snd r = snd r' /\ same_effect f f' (fst r) (fst r') /\ (snd r = None -> fst r (env_locate e path) = Ok t /\ fst r' (env_locate e path) = Ok t).
  Proof.
    unfold write_file. destruct (env_write e path) as [|er|er part]; cbn [fst snd].
    - rewrite String.eqb_refl. repeat split; auto. intros l. destruct (String.eqb l _); auto.
    - repeat split; auto; try discriminate. intros l. auto.
    - repeat split; auto; try discriminate. intros l. destruct (String.eqb l _); auto.
  Qed.
  Lemma effect_refl : same_effect f f' f f'.
  Proof. intros l. auto. Qed.
  Lemma compile_same fuel s path : order_ok (env_order e path) -> by_keys (env_order e path) ->
    same_outcome (env_parse e) f f' (env_locate e (with_extension path "graphql.d.ts")) (compile_file fuel e f c s path) (compile_file fuel e f' c s path).
  Proof.
    intros Ho Hk. unfold compile_file. pose proof (read_same path) as Rd. pose proof effect_refl as Z. unfold read_file in *.
    destruct (f (env_locate e path)) as [t|x] eqn:E0, (f' (env_locate e path)) as [t'|x']; try contradiction.
    2: { cbn. split; auto. rewrite Rd. constructor; [apply lm_same, same_message_refl|constructor]. }
    pose proof (file_same t t' path Rd) as P. destruct (parse_file e t path) as [d|m], (parse_file e t' path) as [d'|m']; try contradiction.
    2: { cbn. split; auto. }
    pose proof (imports_same fuel path t t' [] [] [] [] Rd (Forall2_nil _) (Forall2_nil _)) as Q.
    destruct (add_imports fuel e f c path t [] []) as [[im ms]| |], (add_imports fuel e f' c path t' [] []) as [[im' ms']| |]; try contradiction; try exact I.
    destruct Q as [Q1 Q2]. pose proof (foreigns_same path im im' ms ms' Ho Hk Q1 Q2) as [G1 G2].
    destruct (parse_foreign e path im ms) as [fr ms1], (parse_foreign e path im' ms') as [fr' ms1']. cbn [fst snd] in *.
    pose proof (compile_moved s (cc_deprecations c) fr fr' (suborder (env_order e path) [1; 0]) G1 fuel d d' P) as M.
    destruct (compile_definition fuel _ d) as [[ws r]|], (compile_definition fuel _ d') as [[ws' r']|]; cbn [option_map] in M; try discriminate; [|exact I].
    injection M as Mw Mr. cbn [fst snd] in *. destruct r as [op|es], r' as [op'|es']; try discriminate.
    - injection Mr as ->. pose proof (map_same still_w (warning_message t path) (warning_message t' path) ws ws' (warning_same t t' path) Mw) as W.
      destruct (compile_ir c _ s op') as [co|te].
      + pose proof (write_same (with_extension path "graphql.d.ts") (co_contents co)) as (W1 & W2 & W3).
        destruct (write_file e f _ _) as [g [er|]], (write_file e f' _ _) as [g' [er'|]]; cbn [fst snd] in *; try discriminate.
        * cbn. injection W1 as ->. split; auto. constructor; [apply lm_same, same_message_refl|constructor].
        * destruct (W3 eq_refl) as [X Y]. split; [exact W2|]. cbn [rp_globals rp_messages]. split; [reflexivity|]. split; [|eauto]. apply same_like. apply Forall2_app; auto.
      + cbn. split; auto. apply same_like. apply Forall2_app; [apply Forall2_app; auto|]. constructor; [apply same_message_refl|constructor].
    - assert (Me : still_es es = still_es es') by congruence. cbn. split; auto. apply same_like. apply Forall2_app; auto. apply Forall2_app.
      + eapply map_same; [intros a b; apply error_same|exact Me].
      + eapply map_same; [intros a b; apply warning_same|exact Mw].
  Qed.
  Lemma globals_same fuel s root names :
    match compile_globals_file fuel e f c s root names, compile_globals_file fuel e f' c s root names with
    | Done (g, m), Done (g', m') => m = m' /\ same_effect f f' g g'
    | Panics, Panics => True
    | Diverges, Diverges => True
    | _, _ => False
    end.
  Proof.
    pose proof effect_refl as Z. unfold compile_globals_file. destruct names as [|n names]; auto.
    destruct (compile_globals fuel c _ s (n :: names)) as [[t|te]|]; auto.
    pose proof (write_same (globals_path c root) t) as (W1 & W2 & _). destruct (write_file e f _ _) as [g r], (write_file e f' _ _) as [g' r']; cbn [fst snd] in *.
    subst r'. destruct r; auto.
  Qed.
End Files.

(** ** The pool in step *)
Section Step.
  Variables (W G R : Type) (run : runner W G R) (relG : G -> G -> Prop) (relR : R -> R -> Prop).
  Hypothesis runs : forall w g g', relG g g' -> match run w g, run w g' with
    | Done (h, l, r), Done (h', l', r') => relG h h' /\ l = l' /\ relR r r'
    | Panics, Panics => True
    | Diverges, Diverges => True
    | _, _ => False
    end.
  Definition same_log (x y : W * list W * R) : Prop := fst x = fst y /\ relR (snd x) (snd y).
  Definition same_worker (w w' : worker W R) : Prop :=
    wk_pc w = wk_pc w' /\ wk_waiting w = wk_waiting w' /\ wk_quitting w = wk_quitting w' /\ Forall2 same_log (wk_log w) (wk_log w').
  Definition same_pool (p p' : pool W G R) : Prop :=
    ps_queue p = ps_queue p' /\ ps_nwait p = ps_nwait p' /\ ps_nquit p = ps_nquit p' /\ Forall2 same_worker (ps_workers p) (ps_workers p') /\
    relG (ps_ext p) (ps_ext p') /\ ps_aborted p = ps_aborted p'.
  Lemma wstep_same n w w' q nw nq g g' : same_worker w w' -> relG g g' ->
    match wstep run n w q nw nq g, wstep run n w' q nw nq g' with
    | (x, q1, a, b, h, ab), (x', q1', a', b', h', ab') => same_worker x x' /\ q1 = q1' /\ a = a' /\ b = b' /\ relG h h' /\ ab = ab'
    end.
  Proof.
    destruct w as [pc wt qt lg], w' as [pc' wt' qt' lg']. intros (E1 & E2 & E3 & E4) Hg. cbn in E1, E2, E3, E4. subst pc' wt' qt'.
    destruct pc as [|x|x|x|[|x xs]| | | |k| | | |[|k]| |]; unfold wstep; cbn [wk_pc wk_waiting wk_quitting wk_log];
      try (repeat split; auto; fail).
    - destruct q as [|[x|] q]; repeat split; auto.
    - pose proof (runs x g g' Hg) as Q. destruct (run x g) as [[[h l] r]| |], (run x g') as [[[h' l'] r']| |]; try contradiction.
      + destruct Q as (Q1 & -> & Q2). repeat split; auto. cbn. apply Forall2_app; auto. constructor; [|constructor]. split; auto.
      + repeat split; auto.
      + repeat split; auto.
    - destruct (k <? n); [repeat split; auto|]. destruct (Nat.eqb nq n); repeat split; auto.
    - destruct (Nat.eqb nw n); repeat split; auto.
  Qed.
  Lemma nth_same l l' i : Forall2 same_worker l l' -> match nth_error l i, nth_error l' i with
    | Some w, Some w' => same_worker w w' | None, None => True | _, _ => False end.
  Proof. intros H. revert i. induction H; intros [|i]; cbn; auto. apply IHForall2. Qed.
  Lemma update_same l l' i w w' : Forall2 same_worker l l' -> same_worker w w' -> Forall2 same_worker (update l i w) (update l' i w').
  Proof. intros H Hw. revert i. induction H; intros [|i]; cbn; constructor; auto. Qed.
  Lemma step_same n p p' i : same_pool p p' -> same_pool (step run n p i) (step run n p' i).
  Proof.
    intros H. pose proof H as (E1 & E2 & E3 & E4 & E5 & E6). unfold step. rewrite <- E6. destruct (ps_aborted p); [exact H|].
    pose proof (nth_same _ _ i E4) as N. destruct (nth_error (ps_workers p) i) as [w|], (nth_error (ps_workers p') i) as [w'|]; try contradiction; [|exact H].
    rewrite <- E1, <- E2, <- E3. pose proof (wstep_same n w w' (ps_queue p) (ps_nwait p) (ps_nquit p) _ _ N E5) as S.
    destruct (wstep run n w _ _ _ _) as [[[[[x q1] a] b] h] ab], (wstep run n w' _ _ _ _) as [[[[[x' q1'] a'] b'] h'] ab'].
    destruct S as (S1 & -> & -> & -> & S2 & ->). repeat split; auto. apply update_same; auto.
  Qed.
  Lemma steps_same n sched : forall p p', same_pool p p' -> same_pool (steps run n p sched) (steps run n p' sched).
  Proof. unfold steps. induction sched as [|i sched IH]; intros p p' H; [exact H|]. cbn [fold_left]. apply IH, step_same, H. Qed.
  Lemma start_same n w g g' : relG g g' -> same_pool (start n w g) (start n w g').
  Proof.
    intros H. repeat split; auto. cbn. induction n as [|n IH]; cbn; constructor; auto. repeat split. constructor.
  Qed.
  Lemma status_same p p' : same_pool p p' -> pool_status p = pool_status p'.
  Proof.
    intros (_ & _ & _ & H & _ & E). unfold pool_status. rewrite E. destruct (ps_aborted p'); auto.
    assert (A : forallb (fun w => is_done w || is_panicked w) (ps_workers p) = forallb (fun w => is_done w || is_panicked w) (ps_workers p') /\
      existsb is_panicked (ps_workers p) = existsb is_panicked (ps_workers p')).
    { clear - H. induction H as [|w w' l l' (Hw & _) H [I1 I2]]; auto. cbn. rewrite I1, I2. unfold is_done, is_panicked. rewrite Hw. auto. }
    destruct A as [-> ->]. reflexivity.
  Qed.
End Step.

Section Run.
  Variables (fuel : nat) (e : env) (ls : listing) (c : cconfig) (s : schema) (f f' : fs).
  Hypothesis files : same_files (same_meaning (env_parse e)) f f'.
  Hypothesis orders : forall p, order_ok (env_order e p) /\ by_keys (env_order e p).
  Notation like := (Forall2 (like_message (env_parse e))).
  Definition same_report (r r' : report) : Prop := like (rp_messages r) (rp_messages r') /\ rp_globals r = rp_globals r'.
  Definition same_state (g g' : fs) : Prop := same_effect f f' g g'.
  Lemma effect_trans g g' h h' : same_effect f f' g g' -> same_effect g g' h h' -> same_effect f f' h h'.
  Proof. intros A B l. destruct (B l) as [[-> ->]|]; auto. Qed.
  Lemma run_work_same w g g' : same_state g g' -> match run_work fuel e ls c s w g, run_work fuel e ls c s w g' with
    | Done (h, l, r), Done (h', l', r') => same_state h h' /\ l = l' /\ same_report r r'
    | Panics, Panics => True
    | Diverges, Diverges => True
    | _, _ => False
    end.
  Proof.
    intros Hg. pose proof (effect_files e f f' c files g g' Hg) as Fg. destruct w as [path|path]; cbn [run_work].
    - pose proof (compile_same e g g' c Fg fuel s path (proj1 (orders path)) (proj2 (orders path))) as C.
      destruct (compile_file fuel e g c s path) as [[h r]| |], (compile_file fuel e g' c s path) as [[h' r']| |]; try contradiction; cbn in C;
        try (destruct r; contradiction); auto.
      destruct C as (C1 & C2). destruct r as [r|ms], r' as [r'|ms']; try contradiction; split; try (eapply effect_trans; eauto).
      + split; auto. destruct C2 as (A & B & _). split; auto.
      + split; auto. split; auto.
    - destruct (run_dir_entry ls path) as [more|err]; (split; [exact Hg|]); split; auto; split; cbn; auto.
      constructor; [apply lm_same, same_message_refl|constructor].
  Qed.
  Lemma agg_same r r' x x' : same_report r r' -> same_report x x' -> same_report (agg_extend r x) (agg_extend r' x').
  Proof. intros [A B] [A' B']. split; cbn; [apply Forall2_app; auto|congruence]. Qed.
  Lemma log_same l l' : Forall2 (same_log work report same_report) l l' -> forall a a', same_report a a' ->
    same_report (fold_left (fun a x => agg_extend a (snd x)) l a) (fold_left (fun a x => agg_extend a (snd x)) l' a').
  Proof. induction 1 as [|x x' l l' [_ Hx] H IH]; intros a a' Ha; cbn [fold_left]; auto. apply IH, agg_same; auto. Qed.
  Lemma aggregate_same p p' : same_pool work fs report same_state same_report p p' -> same_report (aggregate p) (aggregate p').
  Proof.
    intros (_ & _ & _ & H & _). unfold aggregate. assert (Z : same_report agg_new agg_new) by (split; constructor). revert Z. generalize agg_new at 1 3 as a. generalize agg_new as a'.
    assert (Go : forall l l', Forall2 (same_worker work report same_report) l l' -> forall a a', same_report a a' ->
      same_report (fold_left (fun a w => agg_extend a (worker_aggregate (wk_log w))) l a) (fold_left (fun a w => agg_extend a (worker_aggregate (wk_log w))) l' a')).
    { induction 1 as [|w w' l l' (_ & _ & _ & Hw) H' IH]; intros a a' Ha; cbn [fold_left]; auto. apply IH, agg_same; auto.
      unfold worker_aggregate. apply log_same; auto. split; constructor. }
    intros a' a Z. apply Go; auto.
  Qed.
  Lemma finish_same root p p' : same_pool work fs report same_state same_report p p' ->
    match finish_work fuel e c s root p, finish_work fuel e c s root p' with
    | Done (g, ms), Done (g', ms') => same_effect f f' g g' /\ like ms ms'
    | Panics, Panics => True
    | Diverges, Diverges => True
    | _, _ => False
    end.
  Proof.
    intros H. pose proof (aggregate_same _ _ H) as [A B]. destruct H as (_ & _ & _ & _ & Hg & _). unfold finish_work.
    pose proof (globals_same e (ps_ext p) (ps_ext p') c fuel s root (rp_globals (aggregate p))) as K. rewrite <- B.
    destruct (compile_globals_file fuel e (ps_ext p) c s root _) as [[g m]| |], (compile_globals_file fuel e (ps_ext p') c s root _) as [[g' m']| |]; try contradiction; auto;
      try (destruct m; contradiction).
    destruct K as [-> K]. destruct m' as [m|]; (split; [eapply effect_trans; eauto|]); auto. apply Forall2_app; auto. constructor; [|constructor]. apply lm_same, same_message_refl.
  Qed.
End Run.
