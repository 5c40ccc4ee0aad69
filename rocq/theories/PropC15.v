(** C15: arguments and directives do not affect the output. *)
From Verif Require Import GraphqlFacts SelWorlds.

(** A document without field arguments, directives and default values of variables *)
Fixpoint bare_sel (x : selection) : selection :=
  match x with
  | SField p al n _ _ sub => SField p al n [] [] (List.map bare_sel sub)
  | SSpread p n _ => SSpread p n []
  | SInline p c _ sub => SInline p c [] (List.map bare_sel sub)
  end.
Definition bare_sels (l : list selection) : list selection := List.map bare_sel l.
Definition bare_var (v : vardef) : vardef :=
  {| vd_pos := vd_pos v; vd_name := vd_name v; vd_type := vd_type v; vd_default := None |}.
Definition bare_frag (f : fragdef) : fragdef :=
  {| fr_pos := fr_pos f; fr_name := fr_name f; fr_cond := fr_cond f; fr_dirs := []; fr_sels := bare_sels (fr_sels f) |}.
Definition bare_def (d : definition) : definition :=
  match d with
  | DOp (OpSelectionSet p sels) => DOp (OpSelectionSet p (bare_sels sels))
  | DOp (OpNamed k p n vs _ sels) => DOp (OpNamed k p n (List.map bare_var vs) [] (bare_sels sels))
  | DFrag f => DFrag (bare_frag f)
  end.
Definition bare_frags (m : amap string fragdef) : amap string fragdef :=
  List.map (fun x => (fst x, bare_frag (snd x))) m.

(** *** Collection *)
Lemma bare_aget m m' n : bare_frags m = bare_frags m' ->
  match aget n m, aget n m' with
  | Some f, Some f' => bare_frag f = bare_frag f'
  | None, None => True
  | _, _ => False
  end.
Proof.
  revert m'. induction m as [|[k f] m IH]; intros [|[k' f'] m'] E; try discriminate; [exact I|].
  unfold bare_frags in E. cbn [List.map fst snd] in E. injection E as Ek Ef1 Ef2 Ef3 Ef4 E. subst k'.
  cbn [aget]. destruct (eqb n k); [unfold bare_frag; congruence|]. apply IH. exact E.
Qed.
Lemma bare_keys m m' : bare_frags m = bare_frags m' -> akeys m = akeys m'.
Proof.
  revert m'. induction m as [|[k f] m IH]; intros [|[k' f'] m'] E; try discriminate; [reflexivity|].
  unfold bare_frags in E. cbn [List.map fst snd] in E. injection E as Ek Ef1 Ef2 Ef3 Ef4 E. subst k'.
  cbn. f_equal. apply IH. exact E.
Qed.

Section Collect.
  Variables (s : schema) (dep : bool) (fr fr' : amap string fragdef) (o : order).
  Hypothesis same : bare_frags fr = bare_frags fr'.
  Notation cx := {| cx_schema := s; cx_deprecations := dep; cx_frags := fr; cx_order := o |}.
  Notation cx' := {| cx_schema := s; cx_deprecations := dep; cx_frags := fr'; cx_order := o |}.
  Definition alike (rec rec' : collector) : Prop := forall pth l l' par js,
    bare_sels l = bare_sels l' -> rec pth l par js = rec' pth l' par js.

  Lemma insert_alike rec rec' pth p al n sub sub' par js : alike rec rec' -> bare_sels sub = bare_sels sub' ->
    insert_field rec cx pth p al n sub par js = insert_field rec' cx' pth p al n sub' par js.
  Proof.
    intros A E. unfold insert_field. cbn [cx_schema cx_deprecations cx_order].
    destruct (aget n (ct_lookup par)) as [f|]; [|reflexivity].
    destruct sub as [|x sub], sub' as [|x' sub']; try discriminate; [reflexivity|].
    destruct (fdef_is_complex (ft_def (sf_type f))); [|reflexivity].
    destruct (new_ctrav s (ft_name (sf_type f)) p); [|reflexivity]. rewrite (A _ _ _ _ _ E). reflexivity.
  Qed.
  Lemma spread_alike rec rec' pth tn p sub sub' par js : alike rec rec' -> bare_sels sub = bare_sels sub' ->
    spread_into rec cx pth tn p sub par js = spread_into rec' cx' pth tn p sub' par js.
  Proof.
    intros A E. unfold spread_into.
    change (clone_for_type_spread cx' (0 :: pth) par tn p js) with (clone_for_type_spread cx (0 :: pth) par tn p js).
    destruct (clone_for_type_spread cx (0 :: pth) par tn p js) as [[sp ws]|e]; [|reflexivity].
    rewrite (A _ _ _ _ _ E). reflexivity.
  Qed.
  Lemma loop_alike rec rec' : alike rec rec' -> forall l l' pth i par js ws errs, bare_sels l = bare_sels l' ->
    collect_loop rec cx pth i l par js ws errs = collect_loop rec' cx' pth i l' par js ws errs.
  Proof.
    intros A. induction l as [|x l IH]; intros [|x' l'] pth i par js ws errs E; try discriminate; [reflexivity|].
    unfold bare_sels in E. cbn [List.map] in E.
    assert (El : bare_sels l = bare_sels l') by (injection E; auto).
    assert (Ex : bare_sel x = bare_sel x') by (injection E; auto). clear E.
    destruct x as [p al n a d sub|p n d|p c d sub], x' as [p' al' n' a' d' sub'|p' n' d'|p' c' d' sub']; try discriminate;
      cbn [bare_sel] in Ex; cbn [collect_loop].
    - injection Ex as -> -> -> Es. rewrite (insert_alike rec rec' _ _ _ _ sub sub') by auto.
      destruct (insert_field _ _ _ _ _ _ _ _ _) as [[[par' ws'] errs']|]; cbn [option_map]; auto.
    - injection Ex as -> ->. cbn [cx_frags]. pose proof (bare_aget _ _ n' same) as Ha.
      destruct (aget n' fr) as [f|], (aget n' fr') as [f'|]; try contradiction.
      + injection Ha as E1 E2 E3 E4. rewrite E3. rewrite (spread_alike rec rec' _ _ _ (fr_sels f) (fr_sels f')) by auto.
        destruct (spread_into _ _ _ _ _ _ _ _) as [[[[par' ws'] errs']|[[par' ws'] errs']]|]; auto.
      + cbn [cx_order]. rewrite (bare_keys _ _ same). auto.
    - injection Ex as -> -> Es. destruct c' as [c|]; [|auto].
      rewrite (spread_alike rec rec' _ _ _ sub sub') by auto.
      destruct (spread_into _ _ _ _ _ _ _ _) as [[[[par' ws'] errs']|[[par' ws'] errs']]|]; auto.
  Qed.
  Lemma collect_alike fuel : alike (collect fuel cx) (collect fuel cx').
  Proof.
    induction fuel as [|k IH]; intros pth l l' par js E; [reflexivity|]. cbn [collect]. apply loop_alike; auto.
  Qed.
  Lemma vars_alike vs vs' : List.map bare_var vs = List.map bare_var vs' -> try_build_variable_ir s vs = try_build_variable_ir s vs'.
  Proof.
    intros E. assert (X : forall vs, List.map (build_variable s) vs = List.map (build_variable s) (List.map bare_var vs)).
    { intros l. rewrite map_map. apply map_ext. intros v. reflexivity. }
    unfold try_build_variable_ir. rewrite (X vs), (X vs'), E. destruct vs, vs'; try discriminate; reflexivity.
  Qed.
  Lemma compile_alike fuel d d' : bare_def d = bare_def d' -> compile_definition fuel cx d = compile_definition fuel cx' d'.
  Proof.
    intros E. destruct d as [[p l|k p n vs ds l]|f], d' as [[p' l'|k' p' n' vs' ds' l']|f']; try discriminate; cbn [bare_def] in E.
    - injection E as -> _. reflexivity.
    - injection E as -> -> -> Ev El. cbn [compile_definition build_from_operation cx_schema cx_order].
      destruct (new_ctrav s (op_type_name k') p') as [par|e]; [|reflexivity].
      rewrite (collect_alike fuel [0] l l') by auto. rewrite (vars_alike vs vs') by auto. reflexivity.
    - injection E as E1 E2 E3 E4. cbn [compile_definition cx_schema cx_order]. rewrite E1, E2, E3.
      destruct (new_ctrav s (fr_cond f') (fr_pos f')) as [par|e]; [|reflexivity].
      rewrite (collect_alike fuel [0] (fr_sels f) (fr_sels f')) by auto. reflexivity.
  Qed.
End Collect.

(** Documents that agree without arguments, directives and default values compile to the same
    diagnostics and the same module, whatever those are in the document and in the fragments *)
Theorem C15_documents : forall fuel s dep fr fr' o c o' d d',
  bare_def d = bare_def d' -> bare_frags fr = bare_frags fr' ->
  let cx := {| cx_schema := s; cx_deprecations := dep; cx_frags := fr; cx_order := o |} in
  let cx' := {| cx_schema := s; cx_deprecations := dep; cx_frags := fr'; cx_order := o |} in
  compile_definition fuel cx d = compile_definition fuel cx' d' /\
  forall ws co, (exists op, compile_definition fuel cx d = Some (ws, Ok op) /\ compile_ir c o' s op = Ok co) <->
                (exists op, compile_definition fuel cx' d' = Some (ws, Ok op) /\ compile_ir c o' s op = Ok co).
Proof.
  intros fuel s dep fr fr' o c o' d d' Ed Ef cx cx'.
  assert (E : compile_definition fuel cx d = compile_definition fuel cx' d') by (apply compile_alike; auto).
  split; auto. intros ws co. rewrite E. tauto.
Qed.
Print Assumptions C15_documents.

(** *** Whole files: parsers that differ only in arguments, directives and default values *)
Definition with_parse (q : string -> res string document) (e : env) : env :=
  {| env_parse := q; env_locate := env_locate e; env_write := env_write e; env_similar := env_similar e; env_order := env_order e |}.
Definition same_parse (r r' : res string document) : Prop :=
  match r, r' with
  | Ok ds, Ok ds' => List.map bare_def ds = List.map bare_def ds'
  | Err a, Err b => a = b
  | _, _ => False
  end.

Lemma imports_parse q e f c fuel : forall file contents im ms,
  add_imports fuel (with_parse q e) f c file contents im ms = add_imports fuel e f c file contents im ms.
Proof.
  induction fuel as [|k IH]; intros file contents im ms; [reflexivity|]. cbn [add_imports].
  match goal with |- ?F _ _ _ _ = ?G _ _ _ _ => enough (X : forall ls n im ms, F n ls im ms = G n ls im ms) by apply X end.
  clear im ms. induction ls as [|line ls IHl]; intros n im ms; [reflexivity|].
  destruct (is_empty line || is_empty (trim line)); [apply IHl|].
  destruct (negb (starts_with import_start line)). { destruct (starts_with "#" line); [apply IHl|reflexivity]. }
  destruct (import_target c line (path_pop file)) as [t|]; [|reflexivity].
  change (read_file (with_parse q e) f t) with (read_file e f t).
  destruct (read_file e f t) as [other|m]; [|apply IHl].
  rewrite IH. destruct (add_imports k e f c t other im ms) as [[im' ms']| |]; [apply IHl|reflexivity|reflexivity].
Qed.
Lemma def_pos_bare d : def_pos (bare_def d) = def_pos d.
Proof. destruct d as [[p l|k p n vs ds l]|f]; reflexivity. Qed.
Lemma parse_same q e contents path : same_parse (env_parse e contents) (q contents) ->
  match parse_file e contents path, parse_file (with_parse q e) contents path with
  | Ok d, Ok d' => bare_def d = bare_def d'
  | Err a, Err b => a = b
  | _, _ => False
  end.
Proof.
  unfold parse_file. cbn [with_parse env_parse]. destruct (env_parse e contents) as [ds|a], (q contents) as [ds'|b];
    cbn [same_parse]; intros H; try contradiction; [|subst; reflexivity].
  destruct ds as [|d [|d2 ds]], ds' as [|d' [|d2' ds']]; try discriminate; [reflexivity| |].
  - injection H. auto.
  - injection H as _ H2 _. rewrite <- (def_pos_bare d2), <- (def_pos_bare d2'), H2. reflexivity.
Qed.
Lemma aset_bare n f f' m m' : bare_frag f = bare_frag f' -> bare_frags m = bare_frags m' ->
  bare_frags (aset n f m) = bare_frags (aset n f' m').
Proof.
  intros Ef. revert m'. induction m as [|[k g] m IH]; intros [|[k' g'] m'] E; try discriminate.
  - cbn. rewrite Ef. reflexivity.
  - unfold bare_frags in E. cbn [List.map fst snd] in E. injection E as Ek Ef1 Ef2 Ef3 Ef4 E. subst k'.
    assert (Eg : bare_frag g = bare_frag g') by (unfold bare_frag; congruence).
    cbn [aset]. destruct (eqb n k); unfold bare_frags; cbn [List.map fst snd].
    + rewrite Ef. f_equal. exact E.
    + rewrite Eg. f_equal. apply IH. exact E.
Qed.
Lemma foreign_same q e path : (forall t, same_parse (env_parse e t) (q t)) -> forall l fr fr' ms,
  bare_frags fr = bare_frags fr' ->
  let r := fold_left (foreign_step e path) l (fr, ms) in
  let r' := fold_left (foreign_step (with_parse q e) path) l (fr', ms) in
  bare_frags (fst r) = bare_frags (fst r') /\ snd r = snd r'.
Proof.
  intros Hq. induction l as [|[op [contents loc]] l IH]; intros fr fr' ms E; [auto|].
  cbn [fold_left foreign_step]. pose proof (parse_same q e contents (raw op) (Hq contents)) as Hp.
  destruct (parse_file e contents (raw op)) as [d|a], (parse_file (with_parse q e) contents (raw op)) as [d'|b]; try contradiction.
  - destruct d as [op1|f1], d' as [op2|f2].
    + apply IH. auto.
    + destruct op1 as [?|]; discriminate.
    + destruct op2 as [?|]; discriminate.
    + cbn [bare_def] in Hp. assert (Hf : bare_frag f1 = bare_frag f2) by congruence.
      assert (En : fr_name f1 = fr_name f2) by (injection Hf; auto). rewrite En. apply IH. apply aset_bare; auto.
  - apply IH. auto.
Qed.

Theorem C15_files : forall fuel e f c s path q, (forall t, same_parse (env_parse e t) (q t)) ->
  compile_file fuel (with_parse q e) f c s path = compile_file fuel e f c s path.
Proof.
  intros fuel e f c s path q Hq. unfold compile_file.
  change (read_file (with_parse q e) f path) with (read_file e f path).
  destruct (read_file e f path) as [contents|m]; [|reflexivity].
  pose proof (parse_same q e contents path (Hq contents)) as Hp.
  destruct (parse_file e contents path) as [d|a], (parse_file (with_parse q e) contents path) as [d'|b]; try contradiction; [|subst; reflexivity].
  rewrite imports_parse. destruct (add_imports fuel e f c path contents [] []) as [[im ms]| |]; try reflexivity.
  assert (Hf : bare_frags (fst (parse_foreign e path im ms)) = bare_frags (fst (parse_foreign (with_parse q e) path im ms)) /\
               snd (parse_foreign e path im ms) = snd (parse_foreign (with_parse q e) path im ms)).
  { apply foreign_same; auto. }
  destruct (parse_foreign e path im ms) as [fr ms1], (parse_foreign (with_parse q e) path im ms) as [fr' ms1'].
  cbn [fst snd] in Hf. destruct Hf as [Hf <-]. cbn [with_parse env_order env_similar].
  rewrite (compile_alike s (cc_deprecations c) fr fr' (suborder (env_order e path) [1; 0]) Hf fuel d d' Hp). reflexivity.
Qed.
Print Assumptions C15_files.

(** Non-vacuity: @include and an argument *)
Example C15_nonvacuous :
  let dir := [{| dir_name := "include"; dir_args := [("if", "false")] |}] in
  let d := query [SField (at_pos 2 3) None "pet" [("id", "1")] dir [leaf 3 "name"]] in
  let d' := query [node 2 "pet" [leaf 3 "name"]] in
  d <> d' /\ bare_def d = bare_def d' /\
  exists ws op, compile_definition 20 (zoo_cx false []) d = Some (ws, Ok op).
Proof. split; [discriminate|]. split; [reflexivity|]. do 2 eexists. vm_compute. reflexivity. Qed.
