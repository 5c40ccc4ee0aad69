(** Deciding whether the names of introspection data are usable, for the examples. *)
From Verif Require Export NameCheck.

Fixpoint bases_fineb (c : cconfig) (t : jtype) : bool :=
  match t with
  | JT k n o => (match n with Some n => negb (String.eqb k "SCALAR") || scalar_fineb c n | None => true end)
                && match o with Some t' => bases_fineb c t' | None => true end
  end.
Lemma bases_fineb_ok c t : bases_fineb c t = true -> forall n, base_of t "SCALAR" n -> scalar_fine c n.
Proof.
  intros H n B. remember "SCALAR" as k eqn:Ek. induction B as [k n o _ _|w x j k b _ B IH]; subst; cbn [bases_fineb] in H; apply andb_true_iff in H.
  - apply scalar_fineb_ok. apply H.
  - apply IH; tauto.
Qed.
Definition close_free (o : option string) : bool := match o with Some d => negb (has_close d) | None => true end.
Lemma close_free_ok o d : close_free o = true -> o = Some d -> ~ occurs "*/" d.
Proof. intros H ->. apply has_close_false. apply negb_true_iff. exact H. Qed.
Definition jfields_fineb (c : cconfig) (o : option (list jfield)) : bool :=
  match o with
  | Some fs => forallb (fun f => gnameb (jf_name f) && bases_fineb c (jf_type f) && close_free (jf_description f)) fs
  | None => true
  end.
Definition opt_all {A} (f : A -> bool) (o : option (list A)) : bool := match o with Some l => forallb f l | None => true end.
Definition jtype_fineb (c : cconfig) (j : jtypedef) : bool :=
  gnameb (jt_name j) && opt_all gnameb (jt_possible_types j) && opt_all gnameb (jt_enum_values j)
  && (if String.eqb (jt_kind j) "SCALAR" then scalar_fineb c (jt_name j) else negb (reservedb (jt_name j)))
  && close_free (jt_description j) && jfields_fineb c (jt_fields j) && jfields_fineb c (jt_input_fields j).
Definition json_nameableb (c : cconfig) (js : jschema) : bool :=
  forallb (jtype_fineb c) js && quotable (cc_docnode_module c) && quotable (cc_globals_module c).

Lemma opt_all_ok {A} (f : A -> bool) o l x : opt_all f o = true -> o = Some l -> In x l -> f x = true.
Proof. intros H -> I. cbn in H. rewrite forallb_forall in H. auto. Qed.
Lemma json_nameableb_ok c js : json_nameableb c js = true -> json_nameable c js.
Proof.
  unfold json_nameableb. rewrite !andb_true_iff, forallb_forall. intros [[H Q1] Q2].
  assert (T : forall j, In j js -> gnameb (jt_name j) = true /\ opt_all gnameb (jt_possible_types j) = true /\ opt_all gnameb (jt_enum_values j) = true /\
    (if String.eqb (jt_kind j) "SCALAR" then scalar_fineb c (jt_name j) else negb (reservedb (jt_name j))) = true /\
    close_free (jt_description j) = true /\ jfields_fineb c (jt_fields j) = true /\ jfields_fineb c (jt_input_fields j) = true).
  { intros j I. specialize (H j I). unfold jtype_fineb in H. rewrite !andb_true_iff in H. tauto. }
  assert (F : forall j f, In j js -> some_field j f -> gnameb (jf_name f) = true /\ bases_fineb c (jf_type f) = true /\ close_free (jf_description f) = true).
  { intros j f I (fs & Ef & J). destruct (T j I) as (_ & _ & _ & _ & _ & F1 & F2).
    assert (X : jfields_fineb c (Some fs) = true) by (destruct Ef as [<-|<-]; auto).
    cbn in X. rewrite forallb_forall in X. specialize (X f J). rewrite !andb_true_iff in X. tauto. }
  constructor; auto.
  - intros j I. apply gnameb_ok. apply (T j I).
  - intros j ps U I E J. apply gnameb_ok. destruct (T j I) as (_ & X & _). eapply opt_all_ok; eauto.
  - intros j f I J. apply gnameb_ok. apply (F j f I J).
  - intros j vs v I E J. apply gnameb_ok. destruct (T j I) as (_ & _ & X & _). eapply opt_all_ok; eauto.
  - intros j I K. destruct (T j I) as (_ & _ & _ & X & _). apply String.eqb_neq in K. rewrite K in X. apply reservedb_ok. apply negb_true_iff. exact X.
  - intros j I K. destruct (T j I) as (_ & _ & _ & X & _). apply String.eqb_eq in K. rewrite K in X. apply scalar_fineb_ok. exact X.
  - intros j f n I J B. destruct (F j f I J) as (_ & X & _). eapply bases_fineb_ok; eauto.
  - intros j d I E. destruct (T j I) as (_ & _ & _ & _ & X & _). eapply close_free_ok; eauto.
  - intros j f d I J E. destruct (F j f I J) as (_ & _ & X). eapply close_free_ok; eauto.
Qed.

(** Reading concrete texts *)
Lemma reads_once n t l : match lex n t with Some ts => p_items n ts | None => None end = Some l -> forall is, read_module t is <-> is = l.
Proof.
  intros H. destruct (lex n t) as [ts|] eqn:E; [|discriminate].
  assert (R : read_module t l) by (exists ts; split; [exists n; auto|exists n; auto]).
  intros is. split; [|intros ->; auto]. intros R'. eapply read_module_functional; eauto.
Qed.
Lemma p_items_none n ts : (forall f, p_items (n + f) ts = None) -> forall f is, p_items f ts <> Some is.
Proof.
  intros H f is E.
  specialize (H f). replace (n + f) with (f + n) in H by lia. revert H. 
  assert (M : p_items (f + n) ts = Some is); [|congruence].
  clear - E. induction n as [|n IH]; [rewrite Nat.add_0_r; exact E|]. rewrite Nat.add_succ_r. apply p_items_mono. exact IH.
Qed.
Lemma never_reads n m t : (exists ts, lex n t = Some ts /\ forall k, p_items (m + k) ts = None) -> forall is, ~ read_module t is.
Proof.
  intros (ts' & L' & N) is (ts & L & f & E). assert (ts = ts') by (eapply lexes_functional; [exact L|exists n; exact L']). subst ts'.
  exact (p_items_none _ _ N f is E).
Qed.
