(** Generated modules are well-formed trees when names are usable. *)
From Verif Require Export SpecName KeyFacts ReadFacts Compiled.

(** ** Characters *)
Lemma quotable_str s : quotable s = str_ok s.
Proof. induction s as [|c s IH]; cbn; congruence. Qed.
Ltac chars := repeat match goal with
  | H : _ && _ = true |- _ => apply andb_true_iff in H; destruct H
  | H : _ || _ = true |- _ => apply orb_true_iff in H; destruct H
  | H : (_ <=? _) = true |- _ => apply Nat.leb_le in H
  | H : (_ =? _) = true |- _ => apply Nat.eqb_eq in H
  end.
Lemma letter_start a : letter a = true -> start_char a = true.
Proof. unfold letter, start_char. cbn zeta. intros H. rewrite H. reflexivity. Qed.
Lemma letter_or_digit_name a : letter_or_digit a = true -> name_char a = true /\ (nat_of_ascii a =? 46) = false.
Proof.
  unfold letter_or_digit, letter, name_char. cbn zeta. intros H. split.
  - apply orb_true_iff in H. destruct H as [H|H]; [apply orb_true_iff in H; destruct H as [H|H]|].
    + rewrite H. reflexivity.
    + rewrite H, !orb_true_r. reflexivity.
    + rewrite H, !orb_true_r. reflexivity.
  - apply Nat.eqb_neq. intros E. rewrite E in H. discriminate.
Qed.
Lemma letter_lod a : letter a = true -> letter_or_digit a = true.
Proof. unfold letter_or_digit. intros ->. reflexivity. Qed.
Lemma lod_str a : letter_or_digit a = true -> str_stop a = false.
Proof.
  unfold letter_or_digit, letter, str_stop. cbn zeta. intros H.
  repeat rewrite orb_false_iff. repeat split; apply Nat.eqb_neq; intros E; rewrite E in H; discriminate.
Qed.
Lemma gname_chars s : gname s -> all_chars letter_or_digit s = true.
Proof. destruct s as [|c s]; [intros []|]. intros [H1 H2]. cbn. rewrite (letter_lod _ H1), H2. reflexivity. Qed.
Lemma gname_str s : gname s -> str_ok s = true.
Proof.
  intros H. apply gname_chars in H. induction s as [|c s IH]; [reflexivity|]. cbn in *. apply andb_true_iff in H. destruct H as [H1 H2].
  rewrite (lod_str _ H1), (IH H2). reflexivity.
Qed.

(** ** Identifiers *)
Definition id_char (a : ascii) : bool := name_char a && negb (nat_of_ascii a =? 46).
Lemma span_all s : is_empty (snd (span_name s)) = all_chars name_char s.
Proof.
  induction s as [|c s IH]; [reflexivity|]. cbn [span_name all_chars]. destruct (name_char c); [|reflexivity].
  destruct (span_name s) as [a b]. cbn [snd andb] in *. exact IH.
Qed.
Lemma no_dot_all s : no_dot s = all_chars (fun a => negb (nat_of_ascii a =? 46)) s.
Proof. induction s as [|c s IH]; cbn; congruence. Qed.
Lemma ident_spec n : ident n = true <-> exists c s, n = String c s /\ start_char c = true /\ all_chars id_char n = true.
Proof.
  assert (X : forall s, all_chars id_char s = all_chars name_char s && all_chars (fun a => negb (nat_of_ascii a =? 46)) s).
  { induction s as [|c s IH]; [reflexivity|]. cbn [all_chars]. rewrite IH. unfold id_char.
    destruct (name_char c), (negb (nat_of_ascii c =? 46)), (all_chars name_char s); reflexivity. }
  destruct n as [|c s].
  - cbn. split; [discriminate|]. intros (c & s & H & _). discriminate.
  - unfold ident. rewrite span_all, no_dot_all, !andb_true_iff. split.
    + intros [[A B] C]. exists c, s. split; [reflexivity|]. split; [auto|]. rewrite X, B, C. reflexivity.
    + intros (c' & s' & E & A & B). injection E as <- <-. rewrite X in B. apply andb_true_iff in B. tauto.
Qed.
Lemma all_chars_app f a b : all_chars f (a +++ b) = all_chars f a && all_chars f b.
Proof. induction a as [|c a IH]; cbn; auto. rewrite IH, andb_assoc. reflexivity. Qed.
Lemma ident_app a b : ident a = true -> all_chars id_char b = true -> ident (a +++ b) = true.
Proof.
  rewrite !ident_spec. intros (c & s & -> & A & B) H. exists c, (s +++ b). split; [reflexivity|]. split; [auto|].
  rewrite all_chars_app, B, H. reflexivity.
Qed.
Lemma lod_id a : letter_or_digit a = true -> id_char a = true.
Proof. intros H. destruct (letter_or_digit_name a H) as [A B]. unfold id_char. rewrite A, B. reflexivity. Qed.
Lemma all_chars_imp (f g : ascii -> bool) s : (forall a, f a = true -> g a = true) -> all_chars f s = true -> all_chars g s = true.
Proof. intros H. induction s as [|c s IH]; cbn; auto. rewrite !andb_true_iff. intros [A B]. auto. Qed.
Lemma gname_id s : gname s -> all_chars id_char s = true.
Proof. intros H. apply gname_chars in H. eapply all_chars_imp; [|exact H]. apply lod_id. Qed.
Lemma gname_ident s : gname s -> ident s = true.
Proof.
  intros H. pose proof (gname_id s H) as A. destruct s as [|c s]; [destruct H|]. apply ident_spec. exists c, s. split; [reflexivity|].
  split; [|auto]. apply letter_start. apply H.
Qed.

(** ** Reserved words *)
Lemma existsb_in n l : existsb (String.eqb n) l = false <-> ~ In n l.
Proof.
  split.
  - intros H I. assert (existsb (String.eqb n) l = true); [|congruence]. apply existsb_exists. exists n. split; auto. apply String.eqb_refl.
  - intros H. destruct (existsb (String.eqb n) l) eqn:E; auto. apply existsb_exists in E. destruct E as (x & I & E).
    apply String.eqb_eq in E. subst x. contradiction.
Qed.
Lemma binder_spec n : binder n = true <-> ident n = true /\ ~ reserved n.
Proof.
  unfold binder, reserved. rewrite andb_true_iff, negb_true_iff, existsb_in, in_app_iff. tauto.
Qed.
(** A word with a character no reserved word has *)
Lemma odd_word x a b : all_chars (fun c => negb (Ascii.eqb c x)) (String.concat "" (keywords ++ predefined)) = true ->
  ~ reserved (a +++ String x b).
Proof.
  intros H I. apply in_app_iff in I. revert I H. induction (keywords ++ predefined)%list as [|w l IH]; [intros []|].
  assert (E : String.concat "" (w :: l) = w +++ String.concat "" l).
  { destruct l; cbn; [rewrite sapp_nil_r|]; reflexivity. }
  rewrite E, all_chars_app, andb_true_iff. intros [->|I] [A B]; [|exact (IH I B)].
  rewrite all_chars_app, andb_true_iff in A. destruct A as [_ A]. cbn in A. rewrite Ascii.eqb_refl in A. discriminate.
Qed.
Lemma under_word a b : ~ reserved (a +++ "_" +++ b).
Proof. apply (odd_word "_"). reflexivity. Qed.
Lemma variables_word a : ~ reserved (a +++ "Variables").
Proof. apply (odd_word "V"). reflexivity. Qed.

Lemma gname_binder n : gname n -> ~ reserved n -> binder n = true.
Proof. intros G R. apply binder_spec. split; [apply gname_ident|]; auto. Qed.
Lemma binder_ident n : binder n = true -> ident n = true.
Proof. intros H. apply binder_spec in H. tauto. Qed.
Lemma binder_under a b : binder a = true -> all_chars id_char b = true -> binder (a +++ "_" +++ b) = true.
Proof.
  intros A B. apply binder_spec. split; [|apply under_word]. apply ident_app; [apply binder_ident; auto|].
  cbn [all_chars append]. exact B.
Qed.
Lemma binder_vars a : binder a = true -> binder (a +++ "Variables") = true.
Proof. intros A. apply binder_spec. split; [|apply variables_word]. apply ident_app; [apply binder_ident; auto|reflexivity]. Qed.
Lemma binder_key a k : binder a = true -> gname k -> binder (a +++ "_" +++ k) = true.
Proof. intros A G. apply binder_under; auto. apply gname_id. auto. Qed.
Lemma binder_other a : binder a = true -> binder (other_name a) = true.
Proof. intros A. unfold other_name. apply (binder_under a "$$other"); auto. Qed.

(** ** Types *)
Lemma lit_union_ok names : (forall n, In n names -> gname n) -> texpr_ok (lit_union names).
Proof.
  unfold lit_union. destruct names as [|n ns]; intros H; [reflexivity|].
  assert (X : forall l e, texpr_ok e -> (forall x, In x l -> gname x) -> texpr_ok (fold_left (fun e x => XUnion e (XLit x)) l e)).
  { induction l as [|x l IH]; intros e E G; [auto|]. cbn [fold_left]. apply IH; [|intros; apply G; right; auto].
    cbn [texpr_ok]. split; [auto|]. split; [|reflexivity]. apply gname_str, G. left; auto. }
  apply X; [|intros; apply H; right; auto]. apply gname_str, H. left; auto.
Qed.
Lemma mod_expr_ok m e : texpr_ok e -> is_union e = false -> texpr_ok (mod_expr m e).
Proof. intros W U. destruct m; cbn; rewrite ?U; tauto. Qed.
Lemma ptd_ok rest : forall last e, texpr_ok e -> is_union e = false -> texpr_ok (ptd_expr rest last e).
Proof.
  unfold ptd_expr. intros last e W U. pose proof (mod_expr_ok last e W U) as X. revert X. generalize (mod_expr last e) as e0.
  induction rest as [|m rest IH]; intros e0 X; [auto|]. cbn [fold_left]. apply IH. apply mod_expr_ok; [exact X|reflexivity].
Qed.
Lemma doc_ok doc dep : (forall d, doc = Some d -> ~ occurs "*/" d) -> comment_ok (compile_documentation doc dep 2).
Proof.
  intros H. destruct doc as [d|].
  - right. exists (nl +++ spaces 2). split; [reflexivity|]. intros rest. rewrite sapp_assoc.
    apply doc_comment; [left; discriminate|]. apply cut_close_safe, doc_lines_safe. auto.
  - destruct dep; [|left; reflexivity]. right. exists (nl +++ spaces 2). split; [reflexivity|]. intros rest. rewrite sapp_assoc.
    apply doc_comment; auto.
Qed.

Section Module.
  Variable c : cconfig.
  Variable s : schema.
  Hypothesis nm : nameable c s.
  Hypothesis cons_ok : consistent s.

  Lemma scalar_ref sc : (forall n, sc = ScCustom n -> scalar_fine c n) -> ref_name (scalar_ts c sc) = true.
  Proof.
    intros H. destruct sc as [n| | | | |]; try reflexivity. cbn [scalar_ts]. apply (H n eq_refl).
    unfold custom_written, custom_scalar_name. destruct (cc_bottom c); reflexivity.
  Qed.
  Lemma enum_binder P n f : field_of s P n f -> ft_def (sf_type f) = FDEnum -> binder (ft_name (sf_type f)) = true.
  Proof.
    intros F D. pose proof (cons_ok _ _ _ F) as K. unfold kind_agrees in K. rewrite D in K. destruct K as [vs K].
    destruct (get_type s (ft_name (sf_type f))) as [t|] eqn:E; [|discriminate]. cbn in K. injection K as K.
    apply gname_binder; [eapply (nm_types _ _ nm); eauto|]. eapply (nm_reserved _ _ nm); eauto. intros x. rewrite K. discriminate.
  Qed.

  Definition field_good (x : irfield) : Prop :=
    let 'IRField k d dp l r t := x in
    gname k /\ ty_keys gname t /\ exists P n f, field_of s P n f /\ ty_shape s f t /\ d = sf_doc f /\
      l = ft_mod (sf_type f) /\ r = ft_rest (sf_type f).
  Definition group_good (x : planned) : Prop :=
    binder (snd x) = true /\ (forall n, In n (snd (fst x)) -> gname n) /\ forall f, In f (irc_fields (fst (fst x))) -> field_good f.
  Definition coll_good (xs : list ircomplex) : Prop :=
    (exists P, coll_shape s P xs) /\ forall x, In x xs -> cplx_keys gname x.

  Lemma coll_fields xs x : coll_good xs -> In x xs -> gname (irc_name x) /\ forall f, In f (irc_fields x) -> field_good f.
  Proof.
    intros [[P C] Kx] I. inversion C as [P0 xs0 _ _ Po Fs]; subst. destruct x as [T fs]. cbn [irc_name irc_fields]. split.
    - eapply (nm_possible _ _ nm P). apply Po. apply (in_map irc_name) in I. exact I.
    - specialize (Fs _ _ I). pose proof (Kx _ I) as Kk. inversion Kk as [T0 fs0 K1 K2]; subst. inversion Fs as [es _ _ Fe Te]; subst.
      intros [k d dp l r t] J. split; [eapply K1; eauto|]. split; [eapply K2; eauto|].
      apply in_map_iff in J. destruct J as ([[k0 f] t0] & E & J). destruct (Fe _ _ _ J) as (P0 & n & F). pose proof (Te _ _ _ J) as T1.
      unfold mk_irfield in E. injection E as E1 E2 E3 E4 E5 E6. subst. exists P0, n, f. auto.
  Qed.
  Lemma plan_good xs main : coll_good xs -> binder main = true -> forall x, In x (plan xs main) -> group_good x.
  Proof.
    intros C B x I. pose proof (coll_fields xs) as CF. unfold plan in I. destruct (own xs) as [|o0 os] eqn:Eo.
    - destruct xs as [|x0 xs']; [destruct I|]. destruct I as [<-|[]]. split; [exact B|]. cbn [fst snd]. split.
      + intros n J. apply in_map_iff in J. destruct J as (y & <- & J). apply (CF y C J).
      + apply (CF x0 C). left; reflexivity.
    - rewrite <- Eo in I. apply in_app_or in I. destruct I as [I|I].
      + apply in_map_iff in I. destruct I as (y & <- & J). apply own_in in J. destruct J as [J _]. destruct (CF y C J) as [Gy Fy].
        split; [|split]; cbn [fst snd].
        * unfold own_name. apply binder_key; auto.
        * intros n [<-|[]]. auto.
        * auto.
      + destruct (rev (shared xs)) as [|y r] eqn:Er; [destruct I|]. destruct I as [<-|[]]. split; [|split]; cbn [fst snd].
        * apply binder_other; auto.
        * intros n J. apply in_map_iff in J. destruct J as (z & <- & J). apply shared_in in J. apply (CF z C). tauto.
        * assert (J : In y (shared xs)). { apply in_rev. rewrite Er. left; reflexivity. }
          apply shared_in in J. apply (CF y C). tauto.
  Qed.

  Definition outcome (ds : list decl) (us : list string) : Prop :=
    (forall d, In d ds -> decl_ok d) /\ forall u, In u us -> binder u = true.
  Lemma outcome_app ds us ds' us' : outcome ds us -> outcome ds' us' -> outcome (ds ++ ds') (us ++ us').
  Proof. intros [A B] [A' B']. split; intros x I; apply in_app_or in I; destruct I; auto. Qed.
  Lemma outcome_nil : outcome [] [].
  Proof. split; intros x []. Qed.

  Lemma rnd_good :
    (forall names path t ds e us, rnd_type c names path t ds e us ->
       (forall n, In n names -> gname n) -> binder path = true ->
       ty_keys gname t -> forall P n f, field_of s P n f -> ty_shape s f t ->
       outcome ds us /\ texpr_ok e /\ (t = ITypeName \/ is_union e = false)) /\
    (forall names path fs ds ms us, rnd_fields c names path fs ds ms us ->
       (forall n, In n names -> gname n) -> binder path = true -> (forall f, In f fs -> field_good f) ->
       outcome ds us /\ forall m, In m ms -> member_ok m) /\
    (forall pl ds us, rnd_plan c pl ds us -> (forall x, In x pl -> group_good x) -> outcome ds us) /\
    (forall xs main ds us, rnd_coll c xs main ds us -> coll_good xs -> binder main = true -> outcome ds us).
  Proof.
    apply rnd_mutind.
    - intros names path N B K P n f F T. split; [apply outcome_nil|]. split; [apply lit_union_ok; auto|auto].
    - intros names path n N B K P n0 f F T. inversion T; subst.
      assert (X : binder (ft_name (sf_type f)) = true) by (eapply enum_binder; eauto).
      split; [split; [intros d []|intros u [<-|[]]; auto]|]. split; [apply binder_ref; auto|auto].
    - intros names path sc N B K P n f F T. inversion T; subst. split; [apply outcome_nil|]. split; [|auto].
      apply scalar_ref. intros m ->. eapply (nm_scalar_fields _ _ nm); eauto.
    - intros names path xs ds us R IH N B K P n f F T. inversion T; subst. inversion K; subst.
      split; [apply IH; auto; split; eauto|]. split; [apply binder_ref; auto|auto].
    - intros names path N B Fg. split; [apply outcome_nil|intros m []].
    - intros names path k d dp l r t fs ds e us ds' ms us' Rt IHt Rf IHf N B Fg.
      destruct (Fg _ (or_introl eq_refl)) as (Gk & Kt & P & n & f & F & T & -> & -> & ->).
      destruct (IHt N (binder_key _ _ B Gk) Kt _ _ _ F T) as (O1 & W & U).
      destruct (IHf N B (fun x I => Fg x (or_intror I))) as (O2 & M).
      split; [apply outcome_app; auto|]. intros m [<-|I]; [|auto]. unfold r_member. repeat split; cbn [m_comment m_name m_type].
      + apply doc_ok. intros d Ed. eapply (nm_docs _ _ nm); eauto.
      + apply gname_ident. auto.
      + destruct U as [->|U]; [|apply ptd_ok; auto]. inversion T as [f0 D| | |]; subst.
        destruct (nm_typename _ _ nm _ _ _ F D) as [-> ->]. exact W.
    - intros _. apply outcome_nil.
    - intros T fs names path pl ds ms us ds' us' Rf IHf Rp IHp G.
      destruct (G _ (or_introl eq_refl)) as (B & N & Fg). cbn [fst snd irc_fields] in *.
      destruct (IHf N B Fg) as (O1 & M). apply outcome_app; [|apply IHp; intros x I; apply G; right; auto].
      destruct O1 as [D1 U1]. split; auto. intros d I. apply in_app_or in I. destruct I as [I|[<-|[]]]; auto. split; auto.
    - intros xs main ds us _ _ R IH C B. apply IH. apply plan_good; auto.
    - intros xs main ds us Ow R IH C B. destruct (IH (plan_good xs main C B)) as [D U]. split; auto.
      intros d I. apply in_app_or in I. destruct I as [I|[<-|[]]]; auto. split; auto. split.
      + unfold plan. destruct (own xs) as [|y ys]; [congruence|]. discriminate.
      + intros n J. apply in_map_iff in J. destruct J as (x & <- & J). apply binder_ref. apply (plan_good xs main C B x J).
  Qed.

  Lemma vars_good op ds us : binder (op_name op) = true ->
    (forall vs v, op_variables op = Some vs -> In v vs -> gname (v_name v)) ->
    r_variables c s op = Ok (ds, us) -> outcome ds us.
  Proof.
    intros B Vn H. unfold r_variables in H. destruct (op_variables op) as [vs|]; [|inversion H; subst; apply outcome_nil].
    destruct (r_vars c s vs) as [[r us0]|e] eqn:E; [|discriminate]. injection H as <- <-.
    assert (X : (forall x, In x r -> In (fst x) vs /\ ref_name (snd x) = true) /\ forall u, In u us0 -> binder u = true).
    { clear Vn. revert r us0 E. induction vs as [|v vs IH]; intros r us0 E; cbn [r_vars] in E.
      - inversion E; subst. split; intros x [].
      - destruct (r_vartype c s v) as [[t u]|] eqn:Et; [|discriminate]. destruct (r_vars c s vs) as [[r' us']|]; [|discriminate].
        injection E as <- <-. destruct (IH _ _ eq_refl) as [I1 I2].
        assert (Y : ref_name t = true /\ forall x, In x u -> binder x = true).
        { unfold r_vartype in Et. destruct (v_type v) as [| | | | |n]; try (injection Et as <- <-; split; [reflexivity|intros x []]).
          destruct (get_type s n) as [ty|] eqn:Eg; [|discriminate].
          assert (Z : (forall x, st_def ty <> TScalar x) -> binder n = true).
          { intros Ns. apply gname_binder; [eapply (nm_types _ _ nm); eauto|eapply (nm_reserved _ _ nm); eauto]. }
          destruct (st_def ty) eqn:Ed; injection Et as <- <-;
            try (assert (Bn : binder n = true) by (apply Z; intros; discriminate);
                 split; [apply binder_ref; auto|intros x [<-|[]]; auto]; fail).
          split; [|intros x []]. apply (scalar_ref (ScCustom n)). intros m Em. injection Em as <-.
          eapply (nm_scalars _ _ nm); eauto. }
        split.
        + intros x [<-|I]; cbn [fst snd]; [split; [left; auto|tauto]|]. destruct (I1 x I). split; [right|]; auto.
        + intros x I. apply in_app_or in I. destruct I; [apply Y|]; auto. }
    destruct X as [X1 X2]. split; [|auto]. intros d [<-|[]]. split; [apply binder_vars; auto|].
    intros m I. apply in_map_iff in I. destruct I as (x & <- & I).
    apply (Permutation_in _ (Permutation_sym (sort_by_perm _ r))) in I. destruct (X1 x I) as [Iv Rf].
    unfold var_member. repeat split; cbn [m_comment m_name m_type].
    - left. reflexivity.
    - apply gname_ident. eapply Vn; eauto.
    - apply mod_expr_ok; [exact Rf|reflexivity].
  Qed.
End Module.

Lemma try_build_names s defs vs v : try_build_variable_ir s defs = Ok (Some vs) -> In v vs -> exists d, In d defs /\ v_name v = vd_name d.
Proof.
  unfold try_build_variable_ir. destruct defs as [|d0 defs]; [discriminate|]. generalize (d0 :: defs). intros l H I.
  destruct (collect_res (List.map (build_variable s) l)) as [vs'|] eqn:E; [|discriminate]. injection H as ->.
  apply collect_res_Ok in E. apply (in_map (@Ok var_error variable)) in I. rewrite <- E in I. apply in_map_iff in I.
  destruct I as (d & Eb & I). exists d. split; auto. unfold build_variable in Eb. destruct (unwrap_var_def d) as [[m g]|]; [|discriminate].
  destruct (vtype_of_name s g (vd_pos d)); [|discriminate]. injection Eb as <-. reflexivity.
Qed.

Lemma ty_keys_imp (K K' : string -> Prop) : (forall k, K k -> K' k) ->
  (forall t, ty_keys K t -> ty_keys K' t) /\ (forall x, cplx_keys K x -> cplx_keys K' x).
Proof.
  intros H.
  assert (G : forall x, cplx_keys K x -> cplx_keys K' x).
  { fix IH 2. intros x [T fs A B]. constructor; [intros; eauto|].
    intros k d dp l r t I. destruct (B _ _ _ _ _ _ I); constructor. intros y J. apply IH. auto. }
  split; [|exact G]. intros t [| | |cs A]; constructor. auto.
Qed.

(** The module written for a document is a well-formed tree *)
Lemma module_ok fuel cx c d ws co op P ds us vds vus :
  order_ok (cx_order cx) -> consistent (cx_schema cx) ->
  nameable c (cx_schema cx) -> doc_named (cx_frags cx) d (def_name d) ->
  compile_definition fuel cx d = Some (ws, Ok op) -> op_name op = def_name d ->
  try_build_variable_ir (cx_schema cx) (doc_vars d) = Ok (op_variables op) ->
  coll_shape (cx_schema cx) P (op_collection op) ->
  rnd_coll c (op_collection op) (def_name d) ds us -> r_variables c (cx_schema cx) op = Ok (vds, vus) ->
  co_globals co = sunion [] (us ++ vus) ->
  tsfile_ok (file_of c op (ds ++ vds) (co_globals co)).
Proof.
  intros O Co Nm Dn Ed En Ev Sh Rn Rv Eg.
  assert (B : binder (def_name d) = true) by (apply gname_binder; apply Dn).
  assert (Keys : forall x, In x (op_collection op) -> cplx_keys gname x).
  { intros x I. pose proof (definition_keys fuel cx d ws op O Ed x I) as X.
    eapply (ty_keys_imp _ gname); [|exact X]. apply Dn. }
  assert (O1 : outcome ds us).
  { eapply (rnd_good c (cx_schema cx) Nm Co); [exact Rn| |exact B]. split; eauto. }
  assert (O2 : outcome vds vus).
  { eapply vars_good; [exact Nm|rewrite En; exact B| |exact Rv].
    intros vs v Es I. rewrite Es in Ev. destruct (try_build_names _ _ _ _ Ev I) as (vd & J & ->). apply (dn_vars _ _ _ Dn). auto. }
  destruct (outcome_app _ _ _ _ O1 O2) as [Od Ou].
  unfold tsfile_ok, file_of. cbn [tf_node tf_node_from tf_globals tf_globals_from tf_decls tf_args].
  split; [destruct (op_kind op); reflexivity|]. rewrite <- !quotable_str. split; [apply (nm_node_from _ _ Nm)|]. split.
  - intros n I. apply (Permutation_in _ (Permutation_sym (sort_by_perm _ _))) in I. rewrite Eg in I. apply In_sunion in I.
    destruct I as [[]|I]; auto.
  - split; [apply (nm_globals_from _ _ Nm)|]. split; [exact Od|]. split.
    + intros H. apply app_eq_nil in H. destruct H as [H _]. subst ds. inversion Rn as [xs main ds0 us0 Ne Ow Rp|xs main ds0 us0 Ne Rp E]; subst.
      * unfold plan in Rp. rewrite Ow in Rp. destruct (op_collection op) as [|x xs']; [congruence|].
        inversion Rp; subst. match goal with H : (_ ++ _)%list = [] |- _ => apply app_eq_nil in H; destruct H as [H _]; apply app_eq_nil in H; destruct H; discriminate end.
      * match goal with H : (_ ++ _)%list = [] |- _ => apply app_eq_nil in H; destruct H; discriminate end.
    + unfold node_args. rewrite En.
      assert (R1 : ref_name (def_name d) = true) by (apply binder_ref; auto).
      assert (R2 : ref_name (vars_arg op) = true).
      { unfold vars_arg. rewrite En. destruct (op_variables op); [apply binder_ref, binder_vars; auto|reflexivity]. }
      destruct (op_kind op); (split; [discriminate|]); intros n I; cbn in I; intuition (subst; auto).
Qed.
