(** The text of a compiled operation is the text of a module. *)
From Verif Require Export PlanFacts InputFacts.

(** *** Variables, restated on syntax trees *)
Definition r_vartype (c : cconfig) (s : schema) (v : variable) : res ts_error (string * list string) :=
  match v_type v with
  | VId | VString => Ok ("string", [])
  | VFloat | VInt => Ok ("number", [])
  | VBoolean => Ok ("boolean", [])
  | VCustom n =>
      match get_type s n with
      | None => Err (TMissingType n)
      | Some t => match st_def t with TScalar _ => Ok (custom_scalar_name c n, []) | _ => Ok (n, [n]) end
      end
  end.
Lemma variable_type_eq c s v g :
  variable_type_name c s v g = match r_vartype c s v with Ok (t, u) => Ok (t, sunion g u) | Err e => Err e end.
Proof.
  unfold variable_type_name, r_vartype. destruct (v_type v); try reflexivity.
  destruct (get_type s name) as [t|]; [|reflexivity]. destruct (st_def t); reflexivity.
Qed.
Definition var_member (x : variable * string) : member :=
  {| m_comment := ""; m_readonly := false; m_name := v_name (fst x); m_optional := opt_mod (v_mod (fst x));
     m_type := mod_expr (v_mod (fst x)) (XName (snd x)) |}.
Fixpoint r_vars (c : cconfig) (s : schema) (vs : list variable) : res ts_error (list (variable * string) * list string) :=
  match vs with
  | [] => Ok ([], [])
  | v :: vs' =>
      match r_vartype c s v with
      | Err e => Err e
      | Ok (t, u) => match r_vars c s vs' with Err e => Err e | Ok (r, us) => Ok ((v, t) :: r, (u ++ us)%list) end
      end
  end.
Definition var_text (x : variable * string) : variable * string := (fst x, prop_type_def [] (v_mod (fst x)) (snd x)).
Lemma variable_types_eq c s vs : forall g,
  variable_types c s vs g =
  match r_vars c s vs with Ok (r, us) => Ok (List.map var_text r, sunion g us) | Err e => Err e end.
Proof.
  induction vs as [|v vs IH]; intros g; cbn [variable_types r_vars]; [reflexivity|].
  rewrite variable_type_eq. destruct (r_vartype c s v) as [[t u]|e]; [|reflexivity].
  rewrite IH. destruct (r_vars c s vs) as [[r us]|e]; [|reflexivity]. rewrite sunion_app. reflexivity.
Qed.
Lemma variable_line_text x : variable_line (var_text x) = member_text (var_member x).
Proof.
  destruct x as [v t]. unfold variable_line, var_text, member_text, var_member.
  cbn [fst snd m_comment m_readonly m_name m_optional m_type].
  rewrite print_mod. cbn [print_texpr]. unfold prop_type_def. cbn [fold_left].
  destruct (v_mod v); cbn [opt_mod]; reflexivity.
Qed.

(** Declarations and used names of the variables *)
Definition r_variables (c : cconfig) (s : schema) (op : operation) : res ts_error (list decl * list string) :=
  match op_variables op with
  | None => Ok ([], [])
  | Some vs =>
      match r_vars c s vs with
      | Err e => Err e
      | Ok (r, us) =>
          Ok ([DObj (op_name op +++ "Variables") (List.map var_member (sort_by (fun x => v_name (fst x)) r))], us)
      end
  end.
Definition vars_arg (op : operation) : string :=
  match op_variables op with None => "never" | Some _ => op_name op +++ "Variables" end.
Definition node_args (op : operation) : list string :=
  match op_kind op with OKFragment => [op_name op] | _ => [op_name op; vars_arg op] end.

Definition file_of (c : cconfig) (op : operation) (ds : list decl) (us : list string) : tsfile :=
  {| tf_node := docnode_name (op_kind op); tf_node_from := cc_docnode_module c;
     tf_globals := sort_by (fun x => x) us; tf_globals_from := cc_globals_module c;
     tf_decls := ds; tf_args := node_args op |}.

Lemma variables_eq c s op g :
  variables_definition c s op g =
  match r_variables c s op with
  | Err e => Err e
  | Ok (ds, us) => Ok (option_map (fun _ => (op_name op +++ "Variables",
                         String.concat "" (List.map (fun d => nl +++ nl +++ decl_text d) ds))) (op_variables op), sunion g us)
  end.
Proof.
  unfold variables_definition, r_variables. destruct (op_variables op) as [vs|]; [|reflexivity].
  rewrite variable_types_eq. destruct (r_vars c s vs) as [[r us]|e]; [|reflexivity].
  cbn [option_map List.map String.concat decl_text].
  rewrite (sort_by_map (fun x => v_name (fst x)) (fun x => v_name (fst x)) var_text) by reflexivity.
  rewrite map_map. rewrite (map_ext _ _ variable_line_text). rewrite (map_map var_member). rewrite !sapp_assoc. reflexivity.
Qed.

Lemma join_app sep l l' : l <> [] -> l' <> [] -> join sep (l ++ l') = join sep l +++ sep +++ join sep l'.
Proof.
  intros N N'. unfold join. induction l as [|x l IH]; [congruence|]. destruct l as [|y l].
  - destruct l' as [|z l']; [congruence|]. reflexivity.
  - change (((x :: y :: l) ++ l')%list) with (x :: y :: (l ++ l')%list). cbn [app] in IH.
    change (String.concat sep (x :: y :: (l ++ l')%list)) with (x +++ sep +++ String.concat sep (y :: (l ++ l')%list)).
    rewrite IH by discriminate. change (String.concat sep (x :: y :: l)) with (x +++ sep +++ String.concat sep (y :: l)).
    rewrite !sapp_assoc. reflexivity.
Qed.

Lemma sort_nil (g : list string) : sort_by (fun x => x) g = [] <-> g = [].
Proof.
  split.
  - intros H. apply Permutation_nil. rewrite <- H. symmetry. apply sort_by_perm.
  - intros ->. reflexivity.
Qed.

Lemma r_collection_nonempty c xs main ds us : r_collection (List.map (r_prepare c) xs) main = Ok (ds, us) -> ds <> [].
Proof.
  assert (X : forall x names path d u, r_complex c x names path = Ok (d, u) -> d <> []).
  { intros [n fs] names path d u E. rewrite r_complex_eq in E.
    assert (Y : forall defs u0 props, r_fields c names path fs defs u0 props = Ok (d, u) -> d <> []).
    { clear E. induction fs as [|f fs IH]; intros defs u0 props E; cbn [r_fields] in E.
      - inversion E; subst. intros H. apply app_eq_nil in H. destruct H. discriminate.
      - destruct (r_field c f names path) as [[[d1 m] u1]|]; [|discriminate]. eauto. }
    eauto. }
  unfold r_collection. destruct xs as [|x [|y xs]]; cbn [List.map]; [discriminate| |].
  - cbn. eauto.
  - set (rep := repeated_names _ _). destruct (Nat.eqb _ _); [cbn; eauto|].
    destruct (r_possibilities _ rep main [] [] [] None) as [[[[d1 u1] ns] r]|]; [|discriminate].
    destruct r as [z|].
    + destruct (rp_render z _ _) as [[d2 u2]|]; [|discriminate]. intros E. inversion E; subst. intros H.
      apply app_eq_nil in H. destruct H. discriminate.
    + intros E. inversion E; subst. intros H. apply app_eq_nil in H. destruct H. discriminate.
Qed.

Section File.
  Variable c : cconfig.
  Variable o : order.
  Hypothesis o_ok : order_ok o.
  Variable s : schema.
  Variable op : operation.

  Lemma compile_ir_eq : compile_ir c o s op =
    match r_collection (List.map (r_prepare c) (op_collection op)) (op_name op) with
    | Err e => Err e
    | Ok (ds, us) =>
        match r_variables c s op with
        | Err e => Err e
        | Ok (vds, vus) =>
            let gs := sunion [] (us ++ vus) in
            Ok {| co_contents := tsfile_text (file_of c op (ds ++ vds) gs); co_globals := gs |}
        end
    end.
  Proof.
    unfold compile_ir. rewrite (collection_text_all c o o_ok). unfold rtext.
    destruct (r_collection (List.map (r_prepare c) (op_collection op)) (op_name op)) as [[ds us]|e] eqn:Er; [|reflexivity].
    rewrite variables_eq. destruct (r_variables c s op) as [[vds vus]|e] eqn:Ev; [|reflexivity].
    rewrite sunion_app. set (gs := sunion [] (us ++ vus)). cbn zeta. f_equal. f_equal.
    unfold tsfile_text, file_of. cbn [tf_node tf_node_from tf_globals tf_globals_from tf_decls tf_args].
    change header with banner. f_equal.
    assert (Ei : compile_imports c o (docnode_name (op_kind op)) gs =
      import_text [docnode_name (op_kind op)] (cc_docnode_module c) +++
      match sort_by (fun x => x) gs with [] => "" | l => import_text l (cc_globals_module c) end +++ nl).
    { unfold compile_imports, import_text. rewrite (sort_strings_perm_eq gs (o [1] string gs)) by apply o_ok.
      destruct gs as [|g gs'] eqn:Eg.
      - rewrite (proj2 (sort_nil (o [1] string []))); [cbn [join String.concat]; rewrite !sapp_assoc; reflexivity|].
        apply Permutation_nil. apply o_ok.
      - destruct (sort_by (fun x => x) (o [1] string (g :: gs'))) as [|y l] eqn:Es.
        + apply (proj1 (sort_nil _)) in Es. exfalso. assert (P := o_ok [1] _ (g :: gs')). rewrite Es in P. symmetry in P. apply Permutation_nil in P. discriminate.
        + cbn [join String.concat]. rewrite !sapp_assoc. reflexivity. }
    rewrite Ei. rewrite !sapp_assoc. do 3 f_equal.
    rewrite map_app. 
    assert (Ev' : vds = [] /\ op_variables op = None \/ exists d, vds = [d] /\ exists vs, op_variables op = Some vs).
    { unfold r_variables in Ev. destruct (op_variables op) as [vs|].
      - right. destruct (r_vars c s vs) as [[r u]|]; inversion Ev; subst. eauto.
      - left. inversion Ev; auto. }
    assert (En : forall v r, v = vars_arg op ->
      match op_kind op with
      | OKFragment => docnode_name (op_kind op) +++ "<" +++ op_name op +++ ">"
      | _ => docnode_name (op_kind op) +++ "<" +++ op_name op +++ ", " +++ v +++ ">"
      end +++ ";" +++ r = docnode_name (op_kind op) +++ "<" +++ join ", " (node_args op) +++ ">;" +++ r).
    { intros v r ->. unfold node_args. change (">;" +++ r) with (">" +++ ";" +++ r). generalize (";" +++ r). intros r'.
      destruct (op_kind op); cbn [join String.concat]; rewrite !sapp_assoc; reflexivity. }
    destruct Ev' as [[-> Eo]|(d & -> & vs & Eo)]; rewrite Eo; cbn [option_map List.map String.concat].
    - rewrite app_nil_r. rewrite En by (unfold vars_arg; rewrite Eo; reflexivity). reflexivity.
    - rewrite join_app by (try discriminate; intros H; apply map_eq_nil in H; revert H; eapply r_collection_nonempty; eauto).
      rewrite En by (unfold vars_arg; rewrite Eo; reflexivity). cbn [join String.concat]. rewrite !sapp_assoc. reflexivity.
  Qed.

  Lemma compile_ir_inv P co : coll_shape s P (op_collection op) -> compile_ir c o s op = Ok co ->
    exists ds us vds vus, rnd_coll c (op_collection op) (op_name op) ds us /\ r_variables c s op = Ok (vds, vus) /\
      co_globals co = sunion [] (us ++ vus) /\
      co_contents co = tsfile_text (file_of c op (ds ++ vds) (co_globals co)).
  Proof.
    intros Sh H. rewrite compile_ir_eq in H.
    destruct (r_collection (List.map (r_prepare c) (op_collection op)) (op_name op)) as [[ds us]|e] eqn:Er; [|discriminate].
    destruct (r_variables c s op) as [[vds vus]|e] eqn:Ev; [|discriminate]. inversion H; subst.
    exists ds, us, vds, vus. split; [eapply rendered; eauto|auto].
  Qed.
End File.
