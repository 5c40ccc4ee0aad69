(** C19: canonical output. *)
From Verif Require Import Written SelWorlds.

(** String literals of a type expression, left to right *)
Fixpoint texpr_lits (e : texpr) : list string :=
  match e with
  | XLit s => [s]
  | XName _ | XNull => []
  | XArr e | XParen e => texpr_lits e
  | XUnion a b => texpr_lits a ++ texpr_lits b
  end.

(** A declaration in canonical order.  The alternatives of a union are named after the union: those
    of single concrete types come sorted, the one for all others last. *)
Definition canonical (d : decl) : Prop :=
  match d with
  | DObj _ ms => sorted_by m_name ms /\ forall m, In m ms -> sorted_by (fun x => x) (texpr_lits (m_type m))
  | DAlias n alts => exists Ts rest, sorted_by (fun x => x) Ts /\ NoDup Ts /\
      alts = List.map (fun T => n +++ "_" +++ T) Ts ++ rest /\ (rest = [] \/ rest = [n +++ "_$$other"])
  end.

Lemma lits_mod m e : texpr_lits (mod_expr m e) = texpr_lits e.
Proof. destruct m; cbn; rewrite ?app_nil_r; reflexivity. Qed.
Lemma lits_ptd rest last e : texpr_lits (ptd_expr rest last e) = texpr_lits e.
Proof.
  unfold ptd_expr. assert (X : forall l e0, texpr_lits (fold_left (fun r m => mod_expr m (XParen r)) l e0) = texpr_lits e0).
  { induction l as [|m l IH]; intros e0; cbn [fold_left]; auto. rewrite IH, lits_mod. reflexivity. }
  rewrite X. apply lits_mod.
Qed.
Lemma lits_union names : names <> [] -> texpr_lits (lit_union names) = names.
Proof.
  destruct names as [|n ns]; [congruence|]. intros _. cbn [lit_union].
  assert (X : forall l e, texpr_lits (fold_left (fun e x => XUnion e (XLit x)) l e) = texpr_lits e ++ l).
  { induction l as [|x l IH]; intros e; cbn [fold_left]; [rewrite app_nil_r; auto|]. rewrite IH. cbn [texpr_lits]. rewrite <- app_assoc. reflexivity. }
  apply X.
Qed.

Lemma plan_sorted xs main : sorted_by irc_name xs -> forall T fs names path, In (IRComplex T fs, names, path) (plan xs main) ->
  sorted_by (fun x => x) names /\ names <> [] /\ In (IRComplex T fs) xs.
Proof.
  intros So T fs names path I. unfold plan in I. destruct (own xs) as [|y ys] eqn:Eo.
  - destruct xs as [|x xs]; [destruct I|]. destruct I as [E|[]]. injection E as -> <- <-. split; [exact (sorted_map irc_name _ So)|].
    split; [discriminate|left; auto].
  - rewrite <- Eo in I. apply in_app_or in I. destruct I as [I|I].
    + apply in_map_iff in I. destruct I as (z & E & I). inversion E; subst. split; [repeat constructor|]. split; [discriminate|].
      apply own_in in I. tauto.
    + destruct (rev (shared xs)) as [|z zs] eqn:Ez; [destruct I|]. destruct I as [E|[]]. inversion E; subst.
      assert (J : In (IRComplex T fs) (shared xs)) by (apply in_rev; rewrite Ez; left; auto).
      split; [apply sorted_map, sorted_filter; auto|]. split.
      * destruct (shared xs); [destruct J|discriminate].
      * apply shared_in in J. tauto.
Qed.

Lemma rnd_canonical c s :
  (forall names path t ds e us, rnd_type c names path t ds e us ->
     sorted_by (fun x => x) names -> names <> [] -> forall f, ty_shape s f t ->
     Forall canonical ds /\ sorted_by (fun x => x) (texpr_lits e)) /\
  (forall names path fs ds ms us, rnd_fields c names path fs ds ms us ->
     sorted_by (fun x => x) names -> names <> [] ->
     (forall k d dp l r t, In (IRField k d dp l r t) fs -> exists f, ty_shape s f t) ->
     Forall canonical ds /\ List.map m_name ms = List.map irf_prop fs /\ forall m, In m ms -> sorted_by (fun x => x) (texpr_lits (m_type m))) /\
  (forall pl ds us, rnd_plan c pl ds us ->
     (forall T fs names path, In (IRComplex T fs, names, path) pl -> sorted_by (fun x => x) names /\ names <> [] /\ fields_shape s fs) ->
     Forall canonical ds) /\
  (forall xs main ds us, rnd_coll c xs main ds us -> forall P, coll_shape s P xs -> Forall canonical ds).
Proof.
  apply (rnd_mutind c
    (fun names path t ds e us _ => sorted_by (fun x => x) names -> names <> [] -> forall f, ty_shape s f t ->
       Forall canonical ds /\ sorted_by (fun x => x) (texpr_lits e))
    (fun names path fs ds ms us _ => sorted_by (fun x => x) names -> names <> [] ->
       (forall k d dp l r t, In (IRField k d dp l r t) fs -> exists f, ty_shape s f t) ->
       Forall canonical ds /\ List.map m_name ms = List.map irf_prop fs /\ forall m, In m ms -> sorted_by (fun x => x) (texpr_lits (m_type m)))
    (fun pl ds us _ =>
       (forall T fs names path, In (IRComplex T fs, names, path) pl -> sorted_by (fun x => x) names /\ names <> [] /\ fields_shape s fs) ->
       Forall canonical ds)
    (fun xs main ds us _ => forall P, coll_shape s P xs -> Forall canonical ds)).
  - intros names path So Ne f _. rewrite lits_union by auto. split; auto.
  - intros names path n _ _ f _. split; constructor.
  - intros names path sc _ _ f _. split; constructor.
  - intros names path xs ds us _ IH _ _ f Sh. inversion Sh; subst. split; [eauto|constructor].
  - intros names path _ _ _. split; [constructor|]. split; [reflexivity|intros m []].
  - intros names path k d dp l r t fs ds e us ds' ms us' _ IH _ IH' So Ne Sh.
    destruct (Sh k d dp l r t (or_introl eq_refl)) as [f Hf]. destruct (IH So Ne f Hf) as [I1 I2].
    destruct (IH' So Ne) as (J1 & J2 & J3). { intros. eapply Sh. right. eauto. }
    split; [apply Forall_app; auto|]. split; [cbn; rewrite J2; reflexivity|].
    intros m [<-|I]; auto. cbn [r_member m_type]. rewrite lits_ptd. auto.
  - constructor.
  - intros T fs names path pl ds ms us ds' us' _ IH _ IH' H.
    destruct (H T fs names path (or_introl eq_refl)) as (So & Ne & Sh).
    inversion Sh as [es Ss Nd Ff Ty]; subst.
    destruct (IH So Ne) as (I1 & I2 & I3).
    { intros k d dp l r t I. apply in_map_iff in I. destruct I as ([[k' f] t'] & E & I). inversion E; subst. exists f. eapply Ty; eauto. }
    apply Forall_app. split; [apply Forall_app; split; auto|].
    + constructor; [|constructor]. cbn [canonical]. split; auto.
      assert (X : sorted_by (fun x => x) (List.map m_name ms)).
      { rewrite I2, map_map. replace (List.map (fun x => irf_prop (mk_irfield x)) es) with (List.map (fun e => fst (fst e)) es).
        - apply sorted_map. auto.
        - apply map_ext. intros [[k f] t]. reflexivity. }
      clear - X. induction ms as [|m ms IH]; [constructor|]. cbn in X. inversion X as [|? ? X1 X2]; subst. constructor; [apply IH; auto|].
      apply Forall_forall. intros y Iy. rewrite Forall_forall in X2. apply X2. apply in_map. auto.
    + apply IH'. intros. eapply H. right. eauto.
  - intros xs main ds us _ _ _ IH P Sh. inversion Sh as [P0 xs0 So Nd Po Fs]; subst. apply IH.
    intros T fs names path I. destruct (plan_sorted xs main So T fs names path I) as (A & B & D). eauto.
  - intros xs main ds us Ho _ IH P Sh. inversion Sh as [P0 xs0 So Nd Po Fs]; subst. apply Forall_app. split.
    + apply IH. intros T fs names path I. destruct (plan_sorted xs main So T fs names path I) as (A & B & D). eauto.
    + constructor; [|constructor]. cbn [canonical]. unfold plan. destruct (own xs) as [|y ys] eqn:Eo; [congruence|].
      rewrite <- Eo. exists (List.map irc_name (own xs)).
      exists (List.map plan_name (match rev (shared xs) with [] => [] | x :: _ => [(x, List.map irc_name (shared xs), other_name main)] end)).
      split; [apply sorted_map, sorted_filter; auto|]. split; [apply nodup_map_filter; auto|]. split.
      * rewrite map_app, !map_map. reflexivity.
      * destruct (rev (shared xs)); cbn; auto.
Qed.

Lemma vars_canonical c s op vds vus : r_variables c s op = Ok (vds, vus) -> Forall canonical vds.
Proof.
  unfold r_variables. destruct (op_variables op) as [vs|]; [|intros H; inversion H; constructor].
  destruct (r_vars c s vs) as [[r us]|]; [|discriminate]. intros H; inversion H; subst. constructor; [|constructor]. cbn [canonical]. split.
  - pose proof (sort_by_sorted (fun x : variable * string => v_name (fst x)) r) as So.
    set (l := sort_by _ _) in *. clearbody l. clear - So. induction So as [|x l S IH F]; cbn; constructor; auto.
    apply Forall_forall. intros y I. apply in_map_iff in I. destruct I as (z & <- & I). rewrite Forall_forall in F. apply (F z I).
  - intros m I. apply in_map_iff in I. destruct I as (x & <- & _). cbn [var_member m_type]. rewrite lits_mod. constructor.
Qed.

Theorem C19_canonical : forall fuel cx c o d ws co,
  order_ok (cx_order cx) -> order_ok o -> consistent (cx_schema cx) -> document_file fuel cx c o d ws co ->
  exists m, written_as cx c d co m /\ Forall canonical (tf_decls m) /\
    sorted_by (fun x => x) (tf_globals m) /\ NoDup (tf_globals m).
Proof.
  intros fuel cx c o d ws co O O' Co H.
  destruct (document_inv _ _ _ _ _ _ _ O O' Co H) as (P & p & l & op & ds & us & vds & vus & R & C & Hc & En & Ek & Ev & Sh & Rn & Rv & Eg & Et).
  exists (file_of c op (ds ++ vds) (co_globals co)). split; auto. cbn [file_of tf_decls tf_globals]. split; [|split].
  - apply Forall_app. split; [|eapply vars_canonical; eauto].
    destruct (rnd_canonical c (cx_schema cx)) as (_ & _ & _ & X). eapply X; eauto.
  - apply sort_by_sorted.
  - eapply Permutation_NoDup; [apply sort_by_perm|]. rewrite Eg. apply NoDup_sunion. constructor.
Qed.
Print Assumptions C19_canonical.

(** Non-vacuity: a union split into two members, one of them for two types *)
Example C19_nonvacuous : exists ws co,
  document_file 20 (zoo_cx false []) (cconfig_of (merge_config 4 no_args config_default)) back_order
    (query [node 2 "animals" [leaf 3 "__typename"; on 4 "Dog" [leaf 5 "name"]]; leaf 6 "color"]) ws co /\
  reads_as co {| tf_node := "QueryDocumentNode"; tf_node_from := "@notarize/qlc-cli/typed-documentnode";
    tf_globals := ["Color"]; tf_globals_from := "graphql-globals";
    tf_decls := [DObj "Q_animals_Dog" [r_member (cconfig_of (merge_config 4 no_args config_default)) "__typename" None false MNone [] (XLit "Dog");
                                       r_member (cconfig_of (merge_config 4 no_args config_default)) "name" None false MNone [] (XName "string")];
                 DObj "Q_animals_$$other" [r_member (cconfig_of (merge_config 4 no_args config_default)) "__typename" None false MNone [] (XUnion (XLit "Bird") (XLit "Cat"))];
                 DAlias "Q_animals" ["Q_animals_Dog"; "Q_animals_$$other"];
                 DObj "Q" [r_member (cconfig_of (merge_config 4 no_args config_default)) "animals" None false MList [] (XName "Q_animals");
                           r_member (cconfig_of (merge_config 4 no_args config_default)) "color" None false MNone [] (XName "Color")]];
    tf_args := ["Q"; "never"] |}.
Proof. do 2 eexists. split; [eexists; split; vm_compute; reflexivity|]. apply (reads_by 2000); vm_compute; reflexivity. Qed.
