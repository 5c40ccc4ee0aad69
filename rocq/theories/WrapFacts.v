(** Proofs for C01: translation of list and non-null wrappers. *)
From Verif Require Export SpecGql SpecTsFacts Typescript.

(** *** The rendered text as an expression *)
Definition mod_expr (m : fmod) (e : texpr) : texpr :=
  match m with
  | MNone => e
  | MNullable => XUnion e XNull
  | MList => XArr e
  | MNullableList => XUnion (XArr e) XNull
  | MListOfNullable => XArr (XParen (XUnion e XNull))
  | MNullableListOfNullable => XUnion (XArr (XParen (XUnion e XNull))) XNull
  end.
Definition ptd_expr (firsts : list fmod) (last : fmod) (e : texpr) : texpr :=
  fold_left (fun r m => mod_expr m (XParen r)) firsts (mod_expr last e).

Lemma print_mod m e : print_texpr (mod_expr m e) = single_prop_type_def m (print_texpr e).
Proof. destruct m; cbn; rewrite ?sapp_assoc; auto. Qed.
Lemma print_ptd firsts last e :
  print_texpr (ptd_expr firsts last e) = prop_type_def firsts last (print_texpr e).
Proof.
  unfold ptd_expr, prop_type_def. rewrite <- print_mod. generalize (mod_expr last e).
  induction firsts as [|m l IH]; intros x; cbn [fold_left]; auto.
  rewrite IH. f_equal. rewrite print_mod. auto.
Qed.
Lemma wf_mod m e : wf_texpr e -> is_union e = false -> wf_texpr (mod_expr m e).
Proof. destruct m; cbn; auto. Qed.
Lemma wf_ptd firsts last e : wf_texpr e -> is_union e = false -> wf_texpr (ptd_expr firsts last e).
Proof.
  intros W U. unfold ptd_expr. generalize (wf_mod last e W U). generalize (mod_expr last e).
  induction firsts as [|m l IH]; intros x Wx; cbn [fold_left]; auto.
  apply IH. apply wf_mod; auto.
Qed.

(** *** Meaning of modifiers *)
Definition listof (P : value -> Prop) (v : value) : Prop := exists l, v = VList l /\ Forall P l.
Definition sem (m : fmod) (P : value -> Prop) (v : value) : Prop :=
  match m with
  | MNone => P v
  | MNullable => P v \/ v = VNull
  | MList => listof P v
  | MNullableList => listof P v \/ v = VNull
  | MListOfNullable => listof (fun v => P v \/ v = VNull) v
  | MNullableListOfNullable => listof (fun v => P v \/ v = VNull) v \/ v = VNull
  end.
Definition sems (l : list fmod) (P : value -> Prop) : value -> Prop := fold_right sem P l.

Lemma listof_ext P Q : (forall v, P v <-> Q v) -> forall v, listof P v <-> listof Q v.
Proof.
  intros H v. unfold listof. split; intros [l [-> F]]; exists l; split; auto;
  rewrite Forall_forall in *; intros x Ix; apply H; auto.
Qed.
Lemma sem_ext m P Q : (forall v, P v <-> Q v) -> forall v, sem m P v <-> sem m Q v.
Proof.
  intros H v. destruct m; cbn [sem]; try rewrite H; try tauto.
  - apply listof_ext; auto.
  - rewrite (listof_ext P Q); auto. tauto.
  - apply listof_ext. intros; rewrite H; tauto.
  - rewrite (listof_ext _ (fun v => Q v \/ v = VNull)); [tauto|]. intros; rewrite H; tauto.
Qed.
Lemma sems_ext l P Q : (forall v, P v <-> Q v) -> forall v, sems l P v <-> sems l Q v.
Proof.
  intros H. induction l; cbn; auto. apply sem_ext. auto.
Qed.
Lemma sems_app l m P v : sems (l ++ [m]) P v <-> sems l (sem m P) v.
Proof. unfold sems. rewrite fold_right_app. cbn. tauto. Qed.

Lemma denote_mod env m e v : denote env (mod_expr m e) v <-> sem m (denote env e) v.
Proof. destruct m; cbn; unfold listof; tauto. Qed.
Lemma denote_ptd env firsts last e v :
  denote env (ptd_expr firsts last e) v <-> sems (rev firsts) (sem last (denote env e)) v.
Proof.
  unfold ptd_expr.
  assert (H : forall x P, (forall v, denote env x v <-> P v) ->
    denote env (fold_left (fun r m => mod_expr m (XParen r)) firsts x) v <-> sems (rev firsts) P v).
  { clear last. induction firsts as [|m l IH]; intros x P Hx; cbn [fold_left rev].
    - apply Hx.
    - rewrite sems_app. apply IH. intros w. rewrite denote_mod. apply sem_ext. cbn. auto. }
  apply H. intros w. apply denote_mod.
Qed.

(** *** The modifier builder, one wrapper at a time *)
Section Builder.
  Variable inner : value -> Prop.
  Hypothesis inner_nonnull : ~ inner VNull.

  (** Meaning of a builder whose hole will be filled by the remaining type reference *)
  Definition nonnull (Q : value -> Prop) (v : value) : Prop := Q v /\ v <> VNull.
  Definition hole (c : fmod) (Q : value -> Prop) : value -> Prop :=
    match c with
    | MNone => nonnull Q
    | MNullable => Q
    | MList => listof (nonnull Q)
    | MNullableList => fun v => listof (nonnull Q) v \/ v = VNull
    | MListOfNullable => listof Q
    | MNullableListOfNullable => fun v => listof Q v \/ v = VNull
    end.

  Definition at_nonnull (c : fmod) : bool :=
    match c with MNone | MList | MNullableList => true | _ => false end.
  Definition is_gnonnull (g : gtype) : bool := match g with GNonNull _ => true | _ => false end.
  Definition is_glist (g : gtype) : bool := match g with GList _ => true | _ => false end.

  Lemma valid_cons g : valid_gtype (GNonNull g) = true -> is_gnonnull g = false /\ valid_gtype g = true.
  Proof. destruct g; cbn; auto; discriminate. Qed.

  Let gv := gvalues (fun _ => inner).

  Lemma listof_nonnull_list Q v : listof Q v -> v <> VNull.
  Proof. intros [l [-> _]]. discriminate. Qed.

  Lemma hole_nonnull c g v : at_nonnull c = false ->
    hole c (gv (GNonNull g)) v <->
    hole (mb_concrete (mb_actualize {| mb_concrete := c; mb_higher := [] |})) (gv g) v.
  Proof. destruct c; cbn; try discriminate; unfold nonnull; intros _; tauto. Qed.

  Definition bad_at (c : fmod) (g : gtype) : bool :=
    match c with
    | MNullableList => is_glist g || nullable_list_of_nonnull_lists true g
    | MNone | MList => nullable_list_of_nonnull_lists true g
    | MNullableListOfNullable =>
        (match g with GNonNull (GList _) => true | _ => false end) || nullable_list_of_nonnull_lists false g
    | _ => nullable_list_of_nonnull_lists false g
    end.

  Lemma gv_list g v : gv (GList g) v <-> (listof (gv g) v \/ v = VNull).
  Proof. unfold gv. cbn. unfold listof. tauto. Qed.

  Lemma nonnull_gv_list g v : nonnull (gv (GList g)) v <-> listof (gv g) v.
  Proof.
    unfold nonnull. rewrite gv_list. split.
    - tauto.
    - intros H. split; auto. eapply listof_nonnull_list; eauto.
  Qed.

  Lemma nonnull_named n v : nonnull (gv (GNamed n)) v <-> inner v.
  Proof.
    unfold nonnull, gv. cbn. split; [tauto|]. intros H. split; auto. intros ->. auto.
  Qed.
  Lemma gv_named n v : gv (GNamed n) v <-> inner v \/ v = VNull.
  Proof. unfold gv. cbn. tauto. Qed.

  Lemma hole_named c n v : hole c (gv (GNamed n)) v <-> sem c inner v.
  Proof.
    destruct c; cbn [hole sem].
    - apply nonnull_named.
    - apply gv_named.
    - apply listof_ext. intros; apply nonnull_named.
    - rewrite (listof_ext _ inner); [tauto|]. intros; apply nonnull_named.
    - apply listof_ext. intros; apply gv_named.
    - rewrite (listof_ext _ (fun v => inner v \/ v = VNull)); [tauto|]. intros; apply gv_named.
  Qed.

  Lemma fdef_named kind n d :
    fdef_of_kind kind n = Ok d -> String.eqb kind "NON_NULL" = false /\ String.eqb kind "LIST" = false.
  Proof.
    unfold fdef_of_kind. intros H. split.
    - destruct (String.eqb kind "NON_NULL") eqn:E; auto. apply String.eqb_eq in E. subst. discriminate.
    - destruct (String.eqb kind "LIST") eqn:E; auto. apply String.eqb_eq in E. subst. discriminate.
  Qed.

  Lemma builder_ok kind g d : fdef_of_kind kind (gbase g) = Ok d ->
    valid_gtype g = true ->
    forall b, (at_nonnull (mb_concrete b) && is_gnonnull g = false) ->
    bad_at (mb_concrete b) g = false ->
    exists ft, ftype_of_json_from b (json_of kind g) = Ok ft /\ ft_name ft = gbase g /\ ft_def ft = d /\
      forall v, sems (rev (ft_rest ft)) (sem (ft_mod ft) inner) v <->
                sems (mb_higher b) (hole (mb_concrete b) (gv g)) v.
  Proof.
    intros Hk. induction g as [n|g IH|g IH]; intros V b A B.
    - destruct (fdef_named _ _ _ Hk) as [K1 K2]. cbn [json_of ftype_of_json_from]. rewrite K1, K2.
      cbn [gbase] in *. rewrite Hk. eexists. split; [reflexivity|]. cbn [ft_mod ft_rest ft_name ft_def].
      split; [auto|]. split; [auto|]. intros v.
      rewrite rev_involutive. apply sems_ext. intros w. symmetry. apply hole_named.
    - cbn [json_of ftype_of_json_from]. change (String.eqb "LIST" "NON_NULL") with false.
      change (String.eqb "LIST" "LIST") with true. cbn [valid_gtype gbase] in *.
      destruct b as [c hs]; cbn [mb_concrete mb_higher] in *.
      destruct c; cbn [mb_listize mb_concrete mb_higher bad_at] in *;
        unfold mb_listize; cbn [mb_concrete mb_higher].
      + (* MNone *)
        destruct (IH Hk V {| mb_concrete := MListOfNullable; mb_higher := hs |}) as (ft & E & N & D & Hv).
        { reflexivity. } { cbn. cbn in B. auto. }
        exists ft. split; [auto|]. split; [auto|]. split; [auto|]. intros v. rewrite Hv.
        cbn [mb_higher mb_concrete hole]. apply sems_ext. intros w. symmetry. apply nonnull_gv_list.
      + (* MNullable *)
        cbn in B. apply orb_false_iff in B. destruct B as [B1 B2].
        destruct (IH Hk V {| mb_concrete := MNullableListOfNullable; mb_higher := hs |}) as (ft & E & N & D & Hv).
        { reflexivity. } { cbn. cbn in B1. rewrite B1, B2. auto. }
        exists ft. split; [auto|]. split; [auto|]. split; [auto|]. intros v. rewrite Hv.
        cbn [mb_higher mb_concrete hole]. apply sems_ext. intros w. symmetry. apply gv_list.
      + (* MList *)
        destruct (IH Hk V {| mb_concrete := MListOfNullable; mb_higher := hs ++ [MList] |}) as (ft & E & N & D & Hv).
        { reflexivity. } { cbn. cbn in B. auto. }
        exists ft. split; [auto|]. split; [auto|]. split; [auto|]. intros v. rewrite Hv.
        cbn [mb_higher mb_concrete hole]. rewrite sems_app. apply sems_ext. intros w. cbn [sem].
        apply listof_ext. intros u. symmetry. apply nonnull_gv_list.
      + (* MNullableList: excluded *) cbn in B. discriminate.
      + (* MListOfNullable *)
        cbn in B. apply orb_false_iff in B. destruct B as [B1 B2].
        destruct (IH Hk V {| mb_concrete := MNullableListOfNullable; mb_higher := hs ++ [MListOfNullable] |}) as (ft & E & N & D & Hv).
        { reflexivity. } { cbn. cbn in B1. rewrite B1, B2. auto. }
        exists ft. split; [auto|]. split; [auto|]. split; [auto|]. intros v. rewrite Hv.
        cbn [mb_higher mb_concrete hole]. rewrite sems_app. apply sems_ext. intros w. cbn [sem].
        apply listof_ext. intros u. rewrite gv_list. tauto.
      + (* MNullableListOfNullable *)
        cbn in B. apply orb_false_iff in B. destruct B as [B1 B2].
        destruct (IH Hk V {| mb_concrete := MNullableListOfNullable; mb_higher := hs ++ [MNullableListOfNullable] |}) as (ft & E & N & D & Hv).
        { reflexivity. } { cbn. cbn in B1. rewrite B1, B2. auto. }
        exists ft. split; [auto|]. split; [auto|]. split; [auto|]. intros v. rewrite Hv.
        cbn [mb_higher mb_concrete hole]. rewrite sems_app. apply sems_ext. intros w. cbn [sem].
        rewrite (listof_ext (fun v => (listof (gv g) v \/ v = VNull) \/ v = VNull) (gv (GList g))); [tauto|].
        intros u. rewrite gv_list. tauto.
    - cbn [json_of ftype_of_json_from]. change (String.eqb "NON_NULL" "NON_NULL") with true.
      cbn [gbase] in *. apply valid_cons in V. destruct V as [G V].
      destruct b as [c hs]; cbn [mb_concrete mb_higher] in *.
      cbn [is_gnonnull] in A. rewrite andb_true_r in A.
      destruct (IH Hk V (mb_actualize {| mb_concrete := c; mb_higher := hs |})) as (ft & E & N & D & Hv).
      { rewrite G. apply andb_false_r. }
      { destruct c; cbn in *; try discriminate; auto. }
      exists ft. split; [auto|]. split; [auto|]. split; [auto|]. intros v. rewrite Hv.
      assert (Hh : mb_higher (mb_actualize {| mb_concrete := c; mb_higher := hs |}) = hs /\
                   mb_concrete (mb_actualize {| mb_concrete := c; mb_higher := hs |}) =
                   mb_concrete (mb_actualize {| mb_concrete := c; mb_higher := [] |})).
      { destruct c; cbn in *; try discriminate; auto. }
      destruct Hh as [-> ->]. apply sems_ext. intros w. symmetry. apply hole_nonnull. auto.
  Qed.
End Builder.

(** *** Correctness *)
Lemma known_kind kind n : In kind named_kinds -> exists d, fdef_of_kind kind n = Ok d.
Proof.
  unfold named_kinds. cbn. intros H.
  repeat (destruct H as [<-|H]; [eexists; reflexivity|]). contradiction.
Qed.

Lemma wrappers_ok kind g :
  In kind named_kinds -> valid_gtype g = true -> nullable_list_of_nonnull_lists false g = false ->
  exists ft, ftype_of_json (json_of kind g) = Ok ft /\ ft_name ft = gbase g /\ forall flat, is_name flat ->
      exists e, reads (prop_type_def (ft_rest ft) (ft_mod ft) flat) e /\ forall env, ~ env flat VNull ->
          forall v, denote env e v <-> gvalues (fun _ => env flat) g v.
Proof.
  intros K V L. destruct (known_kind kind (gbase g) K) as [d Hd].
  (* the field type does not depend on the inner values: take it once *)
  destruct (builder_ok (fun _ => False) (fun x => x) kind g d Hd V mb_new) as (ft & E & N & D & _);
    [reflexivity | exact L |].
  exists ft. split; [exact E|]. split; [exact N|]. intros flat Hf.
  exists (ptd_expr (ft_rest ft) (ft_mod ft) (XName flat)). split.
  - change flat with (print_texpr (XName flat)) at 1. rewrite <- print_ptd.
    apply reads_print. apply wf_ptd; cbn; auto.
  - intros env Hn v. rewrite denote_ptd.
    destruct (builder_ok (env flat) Hn kind g d Hd V mb_new) as (ft' & E' & _ & _ & Hv);
      [reflexivity | exact L |].
    rewrite E in E'. inversion E'; subst ft'. rewrite (Hv v). reflexivity.
Qed.

(** *** Exactness: the excluded pattern is always translated wrongly *)
Fixpoint glists (g : gtype) : nat :=
  match g with GNamed _ => 0 | GList g => S (glists g) | GNonNull g => glists g end.
Fixpoint arrays (e : texpr) : nat :=
  match e with
  | XName _ | XLit _ | XNull => 0
  | XArr e => S (arrays e)
  | XUnion a b => Nat.max (arrays a) (arrays b)
  | XParen e => arrays e
  end.
(** [nest d]: d nested lists, the innermost one empty *)
Fixpoint nest (d : nat) : value :=
  match d with O => VList [] | S d => VList [nest d] end.

Lemma nest_list d : exists l, nest d = VList l.
Proof. destruct d; cbn; eauto. Qed.

Lemma denote_nest env e d :
  (forall n l, ~ env n (VList l)) -> denote env e (nest d) -> d < arrays e.
Proof.
  intros Hn. revert d. induction e as [n|s| |e IH|a IHa b IHb|e IH]; intros d H; cbn in *.
  - destruct (nest_list d) as [l E]. rewrite E in H. exfalso. eapply Hn; eauto.
  - destruct (nest_list d) as [l E]. congruence.
  - destruct (nest_list d) as [l E]. congruence.
  - destruct H as [l [E F]]. destruct d as [|d]; [lia|]. cbn in E. inversion E; subst.
    inversion F; subst. apply IH in H1. lia.
  - destruct H as [H|H]; [apply IHa in H | apply IHb in H]; lia.
  - auto.
Qed.
Lemma gvalues_nest inner g d : glists g = S d -> gvalues inner g (nest d).
Proof.
  revert d. induction g as [n|g IH|g IH]; intros d H; cbn in *.
  - discriminate.
  - right. destruct d as [|d]; cbn.
    + exists []. auto.
    + exists [nest d]. split; auto.
  - split; auto. destruct (nest_list d) as [l ->]. discriminate.
Qed.

Definition mod_arrays (m : fmod) : nat := match m with MNone | MNullable => 0 | _ => 1 end.
Fixpoint mods_arrays (l : list fmod) : nat :=
  match l with [] => 0 | m :: l => mod_arrays m + mods_arrays l end.
Lemma arrays_mod m e : arrays (mod_expr m e) = mod_arrays m + arrays e.
Proof. destruct m; cbn; lia. Qed.
Lemma arrays_ptd firsts last e :
  arrays (ptd_expr firsts last e) = mods_arrays firsts + mod_arrays last + arrays e.
Proof.
  unfold ptd_expr. rewrite <- Nat.add_assoc, <- arrays_mod.
  generalize (mod_expr last e). induction firsts as [|m l IH]; intros x; cbn [fold_left]; auto.
  rewrite IH, arrays_mod. cbn [mods_arrays arrays]. lia.
Qed.
Lemma mods_arrays_app a b : mods_arrays (a ++ b) = mods_arrays a + mods_arrays b.
Proof. induction a; cbn [mods_arrays app]; lia. Qed.
Lemma mods_arrays_rev l : mods_arrays (rev l) = mods_arrays l.
Proof.
  induction l as [|m l IH]; auto. cbn [rev]. rewrite mods_arrays_app, IH. cbn [mods_arrays]. lia.
Qed.

Lemma builder_arrays kind g d : fdef_of_kind kind (gbase g) = Ok d -> valid_gtype g = true ->
  forall b ft, (at_nonnull (mb_concrete b) && is_gnonnull g = false) ->
    ftype_of_json_from b (json_of kind g) = Ok ft ->
    let total := mods_arrays (mb_higher b) + mod_arrays (mb_concrete b) + glists g in
    mods_arrays (ft_rest ft) + mod_arrays (ft_mod ft) <= total /\ (bad_at (mb_concrete b) g = true -> mods_arrays (ft_rest ft) + mod_arrays (ft_mod ft) < total).
Proof.
  intros Hk. induction g as [n|g IH|g IH]; intros V b ft A E; cbn zeta.
  - destruct (fdef_named _ _ _ Hk) as [K1 K2]. cbn [json_of ftype_of_json_from] in E.
    rewrite K1, K2 in E. cbn [gbase] in Hk. rewrite Hk in E. inversion E; subst.
    cbn [ft_rest ft_mod]. rewrite mods_arrays_rev. cbn [glists]. split; [lia|].
    destruct b as [c hs]; destruct c; cbn; discriminate.
  - cbn [json_of ftype_of_json_from] in E. change (String.eqb "LIST" "NON_NULL") with false in E.
    change (String.eqb "LIST" "LIST") with true in E. cbn [valid_gtype gbase glists] in *.
    destruct b as [c hs]. cbn [mb_concrete mb_higher] in *.
    destruct c; unfold mb_listize in E; cbn [mb_concrete mb_higher] in E;
      (match type of E with ftype_of_json_from ?b _ = _ => destruct (IH Hk V b ft eq_refl E) as [I1 I2] end);
      cbn [mb_concrete mb_higher] in I1, I2; rewrite ?mods_arrays_app in I1, I2;
      cbn in I1, I2; (split; [cbn; lia|]); intros B; cbn in B;
      try (assert (X : bad_at MNullableListOfNullable g = true) by exact B; cbn in X; specialize (I2 X); cbn; lia);
      try (specialize (I2 B); cbn; lia).
    cbn. lia.
  - cbn [json_of ftype_of_json_from] in E. change (String.eqb "NON_NULL" "NON_NULL") with true in E.
    cbn [gbase glists] in *. apply valid_cons in V. destruct V as [G V].
    destruct b as [c hs]; cbn [mb_concrete mb_higher] in *.
    cbn [is_gnonnull] in A. rewrite andb_true_r in A.
    assert (A2 : at_nonnull (mb_concrete (mb_actualize {| mb_concrete := c; mb_higher := hs |})) && is_gnonnull g = false).
    { rewrite G. apply andb_false_r. }
    destruct (IH Hk V _ ft A2 E) as [I1 I2].
    destruct c; try discriminate; cbn in I1, I2; cbn [mod_arrays]; (split; [cbn; lia|]);
      intros B; cbn in B; try (specialize (I2 B); cbn; lia).
Qed.

Lemma wrappers_exact kind g :
  In kind named_kinds -> valid_gtype g = true ->
  nullable_list_of_nonnull_lists false g = true ->
  exists ft, ftype_of_json (json_of kind g) = Ok ft /\ forall flat, is_name flat ->
      exists e, reads (prop_type_def (ft_rest ft) (ft_mod ft) flat) e /\ forall env, (forall n l, ~ env n (VList l)) ->
          exists v, gvalues (fun _ => env flat) g v /\ ~ denote env e v.
Proof.
  intros K V L. destruct (known_kind kind (gbase g) K) as [d Hd].
  assert (Ex : forall g b, fdef_of_kind kind (gbase g) = Ok d ->
             exists ft, ftype_of_json_from b (json_of kind g) = Ok ft).
  { clear. induction g as [n|g IH|g IH]; intros b Hd; cbn [gbase] in Hd.
    - destruct (fdef_named _ _ _ Hd) as [K1 K2]. cbn [json_of ftype_of_json_from].
      rewrite K1, K2, Hd. eauto.
    - cbn. apply IH; auto.
    - cbn. apply IH; auto. }
  destruct (Ex g mb_new Hd) as [ft E]. exists ft. split; [exact E|]. intros flat Hf.
  exists (ptd_expr (ft_rest ft) (ft_mod ft) (XName flat)). split.
  - change flat with (print_texpr (XName flat)) at 1. rewrite <- print_ptd.
    apply reads_print. apply wf_ptd; cbn; auto.
  - intros env Hn. 
    destruct (builder_arrays kind g d Hd V mb_new ft eq_refl E) as [_ I]. specialize (I L). cbn in I.
    destruct (glists g) as [|k] eqn:Eg; [lia|].
    exists (nest k). split; [apply gvalues_nest; auto|]. intros H.
    apply denote_nest in H; auto. rewrite arrays_ptd in H. cbn in H. lia.
Qed.
