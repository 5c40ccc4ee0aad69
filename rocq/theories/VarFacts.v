(** Variables: which are accepted, and what is written for them. *)
From Verif Require Export FileFacts SpecVar.

Lemma unwrap_ok d : valid_gtype (vgtype d) = true -> list_levels (vgtype d) <= 1 ->
  unwrap_var_def d = Ok (flat_mod (vgtype d), gbase (vgtype d)).
Proof.
  unfold unwrap_var_def, vgtype. destruct (vd_type d) as [n|[n|t|[n|t|t]]|[n|[n|t|[n|t|t]]|t]]; cbn;
    try discriminate; try lia; reflexivity.
Qed.
Lemma unwrap_err d : valid_gtype (vgtype d) = true -> 2 <= list_levels (vgtype d) ->
  unwrap_var_def d = Err (VUnprocessable (vd_name d) (vd_pos d)) \/
  unwrap_var_def d = Err (VListOfList (vd_name d) (vd_pos d)).
Proof.
  unfold unwrap_var_def, vgtype. destruct (vd_type d) as [n|[n|t|[n|t|t]]|[n|[n|t|[n|t|t]]|t]]; cbn;
    try discriminate; try lia; auto.
Qed.

Definition vname_of (n : string) : vtype :=
  if String.eqb n "ID" then VId else if String.eqb n "String" then VString
  else if String.eqb n "Float" then VFloat else if String.eqb n "Int" then VInt
  else if String.eqb n "Boolean" then VBoolean else VCustom n.
Lemma vtype_eq s n p : vtype_of_name s n p =
  if is_builtin n then Ok (vname_of n)
  else match get_type s n with None => Err (VUnknownCustomType n p) | Some _ => Ok (VCustom n) end.
Proof.
  unfold vtype_of_name, vname_of, is_builtin. cbn [existsb builtin_scalars].
  destruct (String.eqb n "ID") eqn:E1; [rewrite orb_true_r; reflexivity|].
  destruct (String.eqb n "String") eqn:E2; [reflexivity|].
  destruct (String.eqb n "Float") eqn:E3; [rewrite !orb_true_r; reflexivity|].
  destruct (String.eqb n "Int") eqn:E4; [reflexivity|].
  destruct (String.eqb n "Boolean") eqn:E5; reflexivity.
Qed.
Lemma vtype_known s n p : known_type s n -> exists t, vtype_of_name s n p = Ok t.
Proof.
  intros [H|H]; rewrite vtype_eq; [rewrite H; eauto|]. destruct (is_builtin n); eauto.
  destruct (get_type s n); eauto. congruence.
Qed.
Lemma vtype_unknown s n p : ~ known_type s n -> vtype_of_name s n p = Err (VUnknownCustomType n p).
Proof.
  intros H. rewrite vtype_eq. destruct (is_builtin n) eqn:E; [destruct H; left; auto|].
  destruct (get_type s n) eqn:G; auto. destruct H. right. congruence.
Qed.
Lemma known_dec s n : known_type s n \/ ~ known_type s n.
Proof.
  unfold known_type. destruct (is_builtin n); auto. destruct (get_type s n); [left; right; congruence|].
  right. intros [H|H]; congruence.
Qed.
Lemma good_dec s d : good_var s d \/ ~ good_var s d.
Proof.
  unfold good_var. destruct (le_dec (list_levels (vgtype d)) 1); [|tauto]. destruct (known_dec s (gbase (vgtype d))); tauto.
Qed.

(** Errors that describe a variable *)
Inductive var_complaint (s : schema) (d : vardef) : var_error -> Prop :=
| vc_nested e : 2 <= list_levels (vgtype d) ->
    e = VUnprocessable (vd_name d) (vd_pos d) \/ e = VListOfList (vd_name d) (vd_pos d) -> var_complaint s d e
| vc_unknown : list_levels (vgtype d) <= 1 -> ~ known_type s (gbase (vgtype d)) ->
    var_complaint s d (VUnknownCustomType (gbase (vgtype d)) (vd_pos d)).

Lemma build_good s d : valid_gtype (vgtype d) = true -> good_var s d ->
  exists t, vtype_of_name s (gbase (vgtype d)) (vd_pos d) = Ok t /\
    build_variable s d = Ok {| v_name := vd_name d; v_mod := flat_mod (vgtype d); v_type := t |}.
Proof.
  intros V [L K]. unfold build_variable. rewrite unwrap_ok by auto. destruct (vtype_known s _ (vd_pos d) K) as (t & E).
  rewrite E. eauto.
Qed.
Lemma build_bad s d : valid_gtype (vgtype d) = true -> ~ good_var s d ->
  exists e, build_variable s d = Err e /\ var_complaint s d e.
Proof.
  intros V B. unfold build_variable. destruct (le_dec (list_levels (vgtype d)) 1) as [L|L].
  - rewrite unwrap_ok by auto. assert (K : ~ known_type s (gbase (vgtype d))) by (intros K; apply B; split; auto).
    rewrite vtype_unknown by auto. eexists. split; [reflexivity|]. apply vc_unknown; auto.
  - destruct (unwrap_err d V ltac:(lia)) as [->| ->]; eexists; (split; [reflexivity|]); apply vc_nested; auto; lia.
Qed.

Lemma collect_first {E A B} (g : A -> res E B) l pre x suf e : l = (pre ++ x :: suf)%list ->
  (forall y, In y pre -> exists b, g y = Ok b) -> g x = Err e -> collect_res (List.map g l) = Err e.
Proof.
  intros -> H Ex. induction pre as [|y pre IH]; cbn [app List.map collect_res].
  - rewrite Ex. reflexivity.
  - destruct (H y (or_introl eq_refl)) as (b & ->). rewrite IH; auto. intros; apply H; right; auto.
Qed.

Lemma vars_accepted s vs : Forall (fun d => valid_gtype (vgtype d) = true) vs -> Forall (good_var s) vs ->
  exists r, try_build_variable_ir s vs = Ok r.
Proof.
  intros V G. unfold try_build_variable_ir. destruct vs as [|v vs]; [eauto|].
  destruct (collect_res (List.map (build_variable s) (v :: vs))) as [r|e] eqn:E; [eauto|].
  apply collect_res_Err in E. apply in_map_iff in E. destruct E as (d & E & I).
  rewrite Forall_forall in V, G. destruct (build_good s d (V d I) (G d I)) as (t & _ & X). congruence.
Qed.
Lemma vars_rejected s vs : Forall (fun d => valid_gtype (vgtype d) = true) vs -> ~ Forall (good_var s) vs ->
  exists pre d suf e, vs = (pre ++ d :: suf)%list /\ Forall (good_var s) pre /\ ~ good_var s d /\
    try_build_variable_ir s vs = Err e /\ var_complaint s d e.
Proof.
  intros V B.
  assert (X : exists pre d suf, vs = (pre ++ d :: suf)%list /\ Forall (good_var s) pre /\ ~ good_var s d).
  { clear V. induction vs as [|v vs IH]; [destruct B; constructor|]. destruct (good_dec s v) as [G|G].
    - destruct IH as (pre & d & suf & -> & F & N); [intros F; apply B; constructor; auto|].
      exists (v :: pre), d, suf. repeat split; auto.
    - exists [], v, vs. repeat split; auto. }
  destruct X as (pre & d & suf & E & F & N). exists pre, d, suf.
  rewrite Forall_forall in V. destruct (build_bad s d) as (e & Ee & Ce); auto.
  { apply V. rewrite E. apply in_or_app. right; left; auto. }
  exists e. repeat split; auto. unfold try_build_variable_ir.
  assert (Q : collect_res (List.map (build_variable s) vs) = Err e).
  { eapply collect_first; eauto. intros y I. rewrite Forall_forall in F.
    destruct (build_good s y) as (t & _ & Ey); eauto. apply V. rewrite E. apply in_or_app; auto. }
  rewrite Q. destruct vs; [destruct pre; discriminate|reflexivity].
Qed.

(** TypeScript name of the named type of a variable *)
Definition var_base (c : cconfig) (s : schema) (n : string) : string :=
  if is_builtin n then scalar_text (cc_bottom c) n
  else match get_type s n with
       | Some t => match st_def t with TScalar _ => scalar_text (cc_bottom c) n | _ => n end
       | None => n
       end.
(** ... and whether it is imported *)
Definition var_global (s : schema) (n : string) : Prop :=
  is_builtin n = false /\ exists t, get_type s n = Some t /\ forall m, st_def t <> TScalar m.

Lemma scalar_custom b n : is_builtin n = false ->
  scalar_text b n = match b with BottomAny => "any" | BottomReal => n | BottomPrefix s => s +++ n end.
Proof.
  unfold is_builtin, scalar_text. cbn [existsb builtin_scalars].
  destruct (String.eqb n "String"), (String.eqb n "ID"), (String.eqb n "Int"), (String.eqb n "Float"), (String.eqb n "Boolean");
    cbn; try discriminate; auto.
Qed.
Lemma r_vartype_known c s n p t nm m : vtype_of_name s n p = Ok t ->
  exists u, r_vartype c s {| v_name := nm; v_mod := m; v_type := t |} = Ok (var_base c s n, u) /\
    (forall x, In x u <-> x = n /\ var_global s n).
Proof.
  rewrite vtype_eq. unfold r_vartype, var_base, var_global. cbn [v_type]. destruct (is_builtin n) eqn:B.
  - intros H. injection H as <-. exists []. split; [|intros x; cbn; split; [tauto|intros [_ [X _]]; discriminate]].
    unfold vname_of, scalar_text. unfold is_builtin in B. cbn [existsb builtin_scalars] in *.
    destruct (String.eqb n "ID") eqn:E1; [rewrite orb_true_r; reflexivity|].
    destruct (String.eqb n "String") eqn:E2; [reflexivity|].
    destruct (String.eqb n "Float") eqn:E3; [rewrite orb_true_r; reflexivity|].
    destruct (String.eqb n "Int") eqn:E4; [reflexivity|].
    destruct (String.eqb n "Boolean") eqn:E5; [reflexivity|discriminate].
  - destruct (get_type s n) as [t0|] eqn:G; [|discriminate]. intros H. injection H as <-. rewrite G.
    destruct (st_def t0) eqn:D.
    all: try (exists [n]; split; [reflexivity|]; intros x; cbn; split; [intros [<-|[]]; split; auto; split; auto; exists t0; split; auto; congruence|intros [-> _]; auto]).
    exists []. split.
    + rewrite scalar_custom by auto. reflexivity.
    + intros x. cbn. split; [tauto|]. intros [_ [_ (t1 & E & N)]]. inversion E; subst t1. destruct (N name). auto.
Qed.

(** The member written for a variable *)
Definition var_prop (c : cconfig) (s : schema) (d : vardef) (m : member) : Prop :=
  m_comment m = "" /\ m_readonly m = false /\ m_name m = vd_name d /\ m_optional m = nullable (vgtype d) /\
  let b := var_base c s (gbase (vgtype d)) in
  (is_name b -> reads (print_texpr (m_type m)) (m_type m)) /\
  texpr_names (m_type m) = [b] /\
  (forall env v, ~ env b VNull -> (denote env (m_type m) v <-> gvalues (fun _ => env b) (vgtype d) v)) /\
  forall env v, denote env (m_type m) v <-> wide_values (env b) (vgtype d) v.

Lemma mod_names m e : texpr_names (mod_expr m e) = texpr_names e.
Proof. destruct m; cbn; rewrite ?app_nil_r; reflexivity. Qed.

Lemma vars_written c s vs r : Forall (fun d => valid_gtype (vgtype d) = true) vs -> Forall (good_var s) vs ->
  collect_res (List.map (build_variable s) vs) = Ok r ->
  exists rs us, r_vars c s r = Ok (rs, us) /\
    (forall x, In x us <-> exists d, In d vs /\ x = gbase (vgtype d) /\ var_global s x) /\
    exists vs', Permutation vs vs' /\ StronglySorted (fun a b => str_leb (vd_name a) (vd_name b) = true) vs' /\
      Forall2 (var_prop c s) vs' (List.map var_member (sort_by (fun x => v_name (fst x)) rs)).
Proof.
  intros V G E.
  assert (X : exists zs us, List.map fst zs = vs /\ r_vars c s r = Ok (List.map snd zs, us) /\
    (forall x, In x us <-> exists d, In d vs /\ x = gbase (vgtype d) /\ var_global s x) /\
    Forall (fun z => v_name (fst (snd z)) = vd_name (fst z) /\ var_prop c s (fst z) (var_member (snd z))) zs).
  { revert r E. induction vs as [|d vs IH]; intros r E.
    - inversion E; subst. exists [], []. repeat split; auto; intros H; [destruct H|destruct H as (d & [] & _)].
    - inversion V as [|? ? Vd V']; subst. inversion G as [|? ? Gd G']; subst.
      destruct (build_good s d Vd Gd) as (t & Et & Eb). cbn [List.map collect_res] in E. rewrite Eb in E.
      destruct (collect_res (List.map (build_variable s) vs)) as [r'|] eqn:Er; [|discriminate]. inversion E; subst.
      destruct (IH V' G' _ eq_refl) as (zs & us & <- & Ers & Hu & F).
      destruct (r_vartype_known c s _ _ _ (vd_name d) (flat_mod (vgtype d)) Et) as (u & Ev & Hx).
      exists ((d, ({| v_name := vd_name d; v_mod := flat_mod (vgtype d); v_type := t |}, var_base c s (gbase (vgtype d)))) :: zs), (u ++ us)%list.
      split; [reflexivity|]. cbn [r_vars List.map snd]. rewrite Ev, Ers. split; [reflexivity|]. split.
      + intros x. rewrite in_app_iff, Hx, Hu. split.
        * intros [[-> Gl]|(d' & I & -> & Gl)]; [exists d|exists d']; split; try (left; reflexivity); try (right; exact I); auto.
        * intros (d' & [<-|I] & -> & Gl); [left; auto|right; exists d'; auto].
      + constructor; auto. cbn [fst snd v_name]. split; auto. destruct Gd as [L K].
        unfold var_prop, var_member. cbn [m_comment m_readonly m_name m_optional m_type fst snd v_name v_mod].
        rewrite nullable_flat by auto. rewrite mod_names. repeat split; auto.
        * intros N. apply reads_print. apply wf_mod; cbn; auto.
        * apply denote_flat; auto.
        * apply denote_flat; auto.
        * apply denote_wide; auto.
        * apply denote_wide; auto. }
  destruct X as (zs & us & <- & Er & Hu & F). exists (List.map snd zs), us. split; auto. split; auto.
  rewrite (sort_by_map (fun z => v_name (fst (snd z)))) by reflexivity.
  exists (List.map fst (sort_by (fun z => v_name (fst (snd z))) zs)). split; [|split].
  - apply Permutation_map. apply sort_by_perm.
  - assert (Fs : Forall (fun z => v_name (fst (snd z)) = vd_name (fst z)) (sort_by (fun z => v_name (fst (snd z))) zs)).
    { apply Forall_forall. intros z I. rewrite Forall_forall in F. apply F.
      eapply Permutation_in; [symmetry; apply sort_by_perm|exact I]. }
    pose proof (sort_by_sorted (fun z : vardef * (variable * string) => v_name (fst (snd z))) zs) as So.
    induction So as [|z l So IH Fz]; cbn; constructor; inversion Fs; subst; auto.
    apply Forall_forall. intros d I. apply in_map_iff in I. destruct I as (w & <- & I). rewrite Forall_forall in Fz.
    match goal with A : Forall _ l |- _ => rewrite Forall_forall in A; rename A into Fl end.
    rewrite <- (Fl w I). match goal with A : v_name (fst (snd z)) = _ |- _ => rewrite <- A end. apply Fz. auto.
  - assert (Fs : Forall (fun z => var_prop c s (fst z) (var_member (snd z))) (sort_by (fun z => v_name (fst (snd z))) zs)).
    { apply Forall_forall. intros z I. rewrite Forall_forall in F. apply F.
      eapply Permutation_in; [symmetry; apply sort_by_perm|exact I]. }
    induction Fs; cbn; constructor; auto.
Qed.
