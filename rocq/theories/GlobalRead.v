(** Reading back the globals file. *)
From Verif Require Export RespFacts SpecStmt LoadName GlobalText.

Lemma doc_ok0 doc : (forall d, doc = Some d -> ~ occurs "*/" d) -> comment_ok (compile_documentation doc false 0).
Proof.
  intros H. destruct doc as [d|]; [|left; reflexivity].
  right. exists (nl +++ spaces 0). split; [reflexivity|]. intros rest. rewrite sapp_assoc.
  apply doc_comment; [left; discriminate|]. apply cut_close_safe, doc_lines_safe. auto.
Qed.

(** ** Texts *)
Lemma lexes_enum_member v r ts : gname v -> lexes r ts ->
  lexes (enum_member v +++ r) ([TId v; TP PEq; TStr v; TP PComma] ++ ts).
Proof.
  intros G L. unfold enum_member. rewrite !sapp_assoc. apply (lexes_blanks "  "); [reflexivity|].
  destruct (ident_plain _ (gname_ident _ G)). cbn [app]. apply lexes_id; auto; [reflexivity|].
  apply (lexes_const " = " [TP PEq]); [reflexivity|reflexivity|]. apply lexes_str; [apply gname_str; auto|].
  apply (lexes_const "," [TP PComma]); [reflexivity|reflexivity|]. exact L.
Qed.
Lemma lexes_enum_members ws : (forall v, In v ws -> gname v) -> forall r ts, lexes r ts ->
  lexes (join nl (List.map enum_member ws) +++ r) (enum_toks (List.map (fun v => (v, v)) ws) ++ ts).
Proof.
  induction ws as [|v ws IH]; intros H r ts L; [exact L|]. destruct ws as [|w ws].
  - cbn [List.map enum_toks flat_map fst snd app]. unfold join. cbn [String.concat]. apply lexes_enum_member; auto. apply H. left. auto.
  - cbn [List.map]. rewrite join_cons. change (enum_member w :: List.map enum_member ws) with (List.map enum_member (w :: ws)).
    rewrite !sapp_assoc. change (enum_toks ((v, v) :: (w, w) :: List.map (fun v => (v, v)) ws)) with
      ([TId v; TP PEq; TStr v; TP PComma] ++ enum_toks (List.map (fun v => (v, v)) (w :: ws))).
    rewrite <- app_assoc. apply lexes_enum_member; [apply H; left; auto|].
    apply (lexes_blanks nl); [reflexivity|]. apply IH; auto. intros x I. apply H. right. auto.
Qed.
Lemma lexes_enum doc n ws r ts : (forall d, doc = Some d -> ~ occurs "*/" d) -> binder n = true -> (forall v, In v ws -> gname v) -> lexes r ts ->
  lexes ((compile_documentation doc false 0 +++ "export enum " +++ n +++ " {" +++ nl
      +++ join nl (List.map enum_member ws) +++ nl +++ "}") +++ r) (item_toks (ItEnum n (List.map (fun v => (v, v)) ws)) ++ ts).
Proof.
  intros D B G L. rewrite !sapp_assoc. apply lexes_comment_ok; [apply doc_ok0; auto|]. cbn [item_toks]. rewrite <- !app_assoc.
  apply (lexes_const "export enum " [TId "export"; TId "enum"]); [reflexivity|reflexivity|]. cbn [app].
  destruct (binder_plain _ B). apply lexes_id; auto; [reflexivity|].
  apply (lexes_const (" {" +++ nl) [TP PLBrace]); [reflexivity|reflexivity|].
  apply lexes_enum_members; auto. apply (lexes_const (nl +++ "}") [TP PRBrace]); [reflexivity|reflexivity|]. exact L.
Qed.

(** The property written for a field of an input object *)
Definition input_name (c : cconfig) (f : sfield) : string :=
  match ft_def (sf_type f) with FDScalar sc => scalar_ts c sc | _ => ft_name (sf_type f) end.
Definition input_member (c : cconfig) (x : string * sfield) : member :=
  {| m_comment := compile_documentation (sf_doc (snd x)) (sf_deprecated (snd x)) 2; m_readonly := false; m_name := fst x;
     m_optional := opt_mod (ft_mod (sf_type (snd x))); m_type := mod_expr (ft_mod (sf_type (snd x))) (XName (input_name c (snd x))) |}.
Lemma input_member_line c x l : input_field_line c x = Ok l -> l = member_text (input_member c x).
Proof.
  destruct x as [k f]. intros H. destruct (input_field_type c k f) as [t|] eqn:E.
  - rewrite (input_line_text _ _ _ _ E) in H. injection H as <-. unfold member_text, input_member. cbn [fst snd m_comment m_readonly m_name m_optional m_type].
    rewrite print_mod. cbn [print_texpr]. assert (Et : t = input_name c f).
    { unfold input_field_type in E. unfold input_name. destruct (ft_def (sf_type f)); try discriminate; injection E as <-; reflexivity. }
    subst t. destruct (opt_mod (ft_mod (sf_type f))); reflexivity.
  - unfold input_field_line in H. rewrite E in H. discriminate.
Qed.

(** ** One definition *)
Inductive def_says (c : cconfig) (n : string) (t : stype) : item -> Prop :=
| ds_enum vs ws : st_def t = TEnum vs -> Permutation vs ws -> sorted_by (fun v => v) ws ->
    def_says c n t (ItEnum n (List.map (fun v => (v, v)) ws))
| ds_input fields fs : st_def t = TInputObject n fields -> Permutation fields fs -> sorted_by fst fs ->
    def_says c n t (ItType (bare_decl (DObj n (List.map (input_member c) fs)))).

Section Read.
  Variable c : cconfig.
  Variable s : schema.
  Hypothesis nm : nameable c s.
  Hypothesis gn : globals_nameable c s.
  Hypothesis ic : inputs_consistent s.

  Lemma type_binder n t : get_type s n = Some t -> (forall x, st_def t <> TScalar x) -> binder n = true.
  Proof. intros G N. apply gname_binder; [eapply (nm_types _ _ nm); eauto|eapply (nm_reserved _ _ nm); eauto]. Qed.
  Lemma input_member_ok n t nm' fs x : get_type s n = Some t -> st_def t = TInputObject nm' fs -> In x fs -> member_ok (input_member c x).
  Proof.
    intros G D I. destruct x as [k f]. split; [|split]; cbn [input_member m_comment m_name m_type fst snd].
    - apply doc_ok. intros d E. eapply (gn_docs _ _ gn); eauto.
    - apply gname_ident. eapply (gn_fields _ _ gn); eauto.
    - apply mod_expr_ok; [|reflexivity]. cbn [texpr_ok]. destruct (ic _ _ _ _ G D) as (_ & _ & F). specialize (F _ _ I).
      unfold input_field_ok in F. cbn zeta in F. unfold input_name. destruct (ft_def (sf_type f)) as [| | | |sc| |] eqn:E; try contradiction.
      + destruct F as (vs & F). destruct (get_type s (ft_name (sf_type f))) as [u|] eqn:Gu; [|discriminate]. injection F as F.
        apply binder_ref. eapply type_binder; eauto. intros x. congruence.
      + apply scalar_ref. intros n' ->. eapply (gn_scalars _ _ gn); eauto.
      + destruct F as (a & b & F). destruct (get_type s (ft_name (sf_type f))) as [u|] eqn:Gu; [|discriminate]. injection F as F.
        apply binder_ref. eapply type_binder; eauto. intros x. congruence.
  Qed.
  Lemma def_reads n t d : get_type s n = Some t -> def_text c n t d ->
    exists it, def_says c n t it /\ item_ok it /\ forall r ts, lexes r ts -> lexes (d +++ r) (item_toks it ++ ts).
  Proof.
    intros G [vs ws D Pm So|fields fs ls D Pm So F].
    - assert (V : forall v, In v ws -> gname v).
      { intros v I. eapply (gn_values _ _ gn); eauto. eapply Permutation_in; [apply Permutation_sym; exact Pm|exact I]. }
      assert (B : binder n = true) by (eapply type_binder; eauto; congruence).
      eexists. split; [econstructor; eauto|split; [split|]].
      + apply members_sorted; auto. apply Forall_forall. intros v I. apply (ident_plain v). apply gname_ident. auto.
      + exact B.
      + intros x I. apply in_map_iff in I. destruct I as (v & <- & I). apply gname_ident. cbn. auto.
      + intros r ts L. apply lexes_enum; auto. intros d' E. eapply (gn_descr _ _ gn); eauto.
    - assert (M : forall m, In m (List.map (input_member c) fs) -> member_ok m).
      { intros m I. apply in_map_iff in I. destruct I as (x & <- & I). eapply input_member_ok; eauto.
        eapply Permutation_in; [apply Permutation_sym; exact Pm|exact I]. }
      assert (B : binder n = true) by (eapply type_binder; eauto; congruence).
      assert (W : decl_ok (DObj n (List.map (input_member c) fs))) by (split; auto).
      assert (El : ls = List.map member_text (List.map (input_member c) fs)).
      { clear - F. induction F as [|x l fs ls E F IH]; [reflexivity|]. cbn. f_equal; [apply input_member_line; exact E|exact IH]. }
      eexists. split; [eapply ds_input; eauto|]. split.
      + split; [apply bare_decl_ok; exact W|apply bare_bare].
      + intros r ts L. rewrite El. apply (lexes_decl (DObj n (List.map (input_member c) fs))); auto.
  Qed.

  Lemma defs_read l ds : (forall n t, In (n, t) l -> get_type s n = Some t) -> Forall2 (fun x d => def_text c (fst x) (snd x) d) l ds ->
    exists items, Forall2 (fun x it => def_says c (fst x) (snd x) it) l items /\ (forall i, In i items -> item_ok i) /\
      lexes (join (nl +++ nl) ds) (flat_map item_toks items).
  Proof.
    intros G F. induction F as [|[n t] d l ds E F IH].
    - exists []. split; [constructor|]. split; [intros i []|]. exact lexes_nil.
    - destruct (def_reads n t d (G _ _ (or_introl eq_refl)) E) as (it & Sy & Ok & Lx).
      destruct IH as (items & Si & Oi & Li). { intros; apply G; right; auto. }
      exists (it :: items). split; [constructor; auto|]. split; [intros i [<-|I]; auto|]. cbn [flat_map].
      destruct ds as [|d' ds].
      + inversion F; subst. inversion Si; subst. unfold join. cbn [String.concat flat_map]. rewrite <- (sapp_nil_r d). apply Lx. exact lexes_nil.
      + rewrite join_cons. apply Lx. apply (lexes_blanks (nl +++ nl)); [reflexivity|]. exact Li.
  Qed.
  Lemma file_reads names text : file_text s c names text ->
    exists l items, NoDup (List.map fst l) /\ sorted_by fst l /\ (forall n t, In (n, t) l <-> needed s names n /\ get_type s n = Some t) /\
      Forall2 (fun x it => def_says c (fst x) (snd x) it) l items /\ forall is, read_module text is <-> is = items.
  Proof.
    intros (l & ds & N & So & K & F & ->). destruct (defs_read l ds) as (items & Si & Oi & Li); auto. { intros n t I. apply K in I. tauto. }
    exists l, items. split; auto. split; auto. split; auto. split; auto.
    assert (R : read_module (header +++ join (nl +++ nl) ds) items).
    { exists (flat_map item_toks items). split; [apply (lexes_banner _ _ Li)|apply p_items_ok; auto]. }
    intros is. split; [|intros ->; exact R]. intros R'. eapply read_module_functional; eauto.
  Qed.
End Read.

(** ** In terms of the introspection data *)
Lemma loaded_last js s n t : load_schema js = Ok s -> get_type s n = Some t ->
  exists j, last_named jt_name n js j /\ type_matches j (st_def t).
Proof.
  intros L G. destruct (load_ok _ _ L) as (_ & La & No).
  destruct (named_dec jt_name n js) as [N|(j & Lj)]; [rewrite (No n N) in G; discriminate|].
  destruct (La n j Lj) as (t' & G' & Ed & M). rewrite G in G'. injection G' as <-. eauto.
Qed.
Lemma member_says c j f k : field_of_json j = Ok f -> jf_name j = k -> member_for c j (bare_member (input_member c (k, f))).
Proof.
  intros E <-. split; [reflexivity|]. split; [reflexivity|]. split; [reflexivity|].
  intros kind g K Ej V Lv. unfold bare_member, input_member. cbn [m_optional m_type fst snd].
  unfold field_of_json in E. rewrite Ej in E. destruct (ftype_of_json (json_of kind g)) as [ft|] eqn:Ef; [|discriminate]. injection E as <-.
  destruct (flat_mod_ok kind g ft K V Lv Ef) as (Em & _). cbn [sf_type]. rewrite Em. split; [apply nullable_flat; auto|].
  unfold input_name. cbn [sf_type]. destruct (input_kind_field kind g K mb_new) as (ft' & Ef' & _ & T).
  unfold ftype_of_json in Ef. rewrite Ef in Ef'. injection Ef' as <-.
  set (f := {| sf_name := ""; sf_doc := None; sf_type := ft; sf_deprecated := false |}). specialize (T c "" f eq_refl).
  assert (En : match ft_def ft with FDScalar sc => scalar_ts c sc | _ => ft_name ft end = input_base (cc_bottom c) kind (gbase g)).
  { unfold input_field_type in T. cbn [sf_type f] in T. destruct (ft_def ft); try discriminate; injection T as <-; reflexivity. }
  rewrite En. split; [intros env Hn v; apply denote_flat; auto|]. intros env v. apply denote_wide; auto.
Qed.
Lemma def_stmt js s c n t it j : load_schema js = Ok s -> get_type s n = Some t -> last_named jt_name n js j ->
  def_says c n t it -> stmt_for c n j it.
Proof.
  intros L G Lj D. destruct (loaded_last _ _ _ _ L G) as (j' & Lj' & M).
  pose proof (last_fun _ _ _ _ _ Lj' Lj) as X.
  subst j'. destruct D as [vs ws D Pm So|fields fs D Pm So]; rewrite D in M; inversion M; subst.
  - econstructor; eauto.
  - destruct (loaded_input _ _ _ _ _ _ L G D) as (_ & Nd & jfs & Dc & Ks & La).
    destruct Dc as (j2 & Lj2 & Ek & Ef).
    pose proof (last_fun _ _ _ _ _ Lj2 Lj) as X.
    subst j2. cbn [bare_decl]. rewrite map_map. eapply (st_input _ _ _ jfs); auto.
    + rewrite map_map. cbn. change (fun x : string * sfield => fst x) with (@fst string sfield).
      eapply Permutation_NoDup; [apply Permutation_map; exact Pm|exact Nd].
    + clear - So. induction So as [|x l S1 IH F]; cbn; constructor; auto. rewrite Forall_map. exact F.
    + intros f I. assert (Ik : In (jf_name f) (akeys fields)) by (apply Ks; eauto). unfold akeys in Ik. apply in_map_iff in Ik. destruct Ik as (x & Ex & Ik).
      exists (bare_member (input_member c x)). split; [|exact Ex]. apply in_map_iff. exists x. split; auto. eapply Permutation_in; eauto.
    + intros m I. apply in_map_iff in I. destruct I as ([k f] & <- & I). cbn [bare_member input_member m_name fst].
      apply (Permutation_in _ (Permutation_sym Pm)) in I. assert (Ik : In k (akeys fields)) by (apply (in_map fst) in I; exact I).
      destruct (named_dec jf_name k jfs) as [Nn|(fj & Lf)].
      { exfalso. apply Ks in Ik. destruct Ik as (x & Ix & <-). apply (Nn x); auto. }
      exists fj. split; auto. destruct (La k fj Lf) as (f' & Gf & Ef'). apply (In_aget k f fields Nd) in I. rewrite I in Gf. injection Gf as <-.
      apply (member_says c fj f k); auto. apply (last_in _ _ _ _ Lf).
Qed.
