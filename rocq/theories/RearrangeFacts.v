(** Lemmas for C92: introspection results in another order declare the same. *)
From Verif Require Export SpecRearrange.
From Verif Require Import GrowFacts GrowWorlds LoadFacts PlanFacts DescFacts.

Lemma opt_sym {A} (R : A -> A -> Prop) x y : (forall a b, R a b -> R b a) -> opt_related R x y -> opt_related R y x.
Proof. intros S. destruct x, y; cbn; auto. Qed.
Lemma type_rearranged_sym j j' : type_rearranged j j' -> type_rearranged j' j.
Proof. intros []. constructor; auto; apply opt_sym; auto; intros; symmetry; auto. Qed.
Lemma Forall2_swap {A} (R : A -> A -> Prop) (S : forall a b, R a b -> R b a) l l' : Forall2 R l l' -> Forall2 R l' l.
Proof. induction 1; constructor; auto. Qed.
Lemma Forall2_perm {A B} (R : A -> B -> Prop) l l1 : Permutation l l1 -> forall m, Forall2 R l m -> exists m1, Permutation m m1 /\ Forall2 R l1 m1.
Proof.
  induction 1 as [|x l l1 P IH|x y l|l l1 l2 P IH P' IH']; intros m F.
  - exists m. auto.
  - inversion F as [|? b ? m0 H F0]; subst. destruct (IH _ F0) as (m1 & Pm & F1). exists (b :: m1). auto.
  - inversion F as [|? b ? m0 H F0]; subst. inversion F0 as [|? b' ? m1 H' F1]; subst. exists (b' :: b :: m1). split; [apply perm_swap|auto].
  - destruct (IH _ F) as (m1 & Pm & F1). destruct (IH' _ F1) as (m2 & Pm' & F2). exists m2. split; auto. eapply perm_trans; eauto.
Qed.
Lemma rearranged_sym js js' : rearranged js js' -> rearranged js' js.
Proof.
  intros (ks & P & F). apply (Forall2_swap _ type_rearranged_sym) in F. apply Permutation_sym in P.
  assert (F' : Forall2 (fun a b => type_rearranged b a) ks js') by (clear - F; induction F; constructor; auto).
  destruct (Forall2_perm _ _ _ P _ F') as (m & Pm & Fm). exists m. split; auto. clear - Fm. induction Fm; constructor; auto.
Qed.
(** Each type has its counterpart *)
Lemma rearranged_in js js' j : rearranged js js' -> In j js -> exists j', In j' js' /\ type_rearranged j j'.
Proof.
  intros (ks & P & F) I. apply (Permutation_in _ P) in I. clear P. induction F as [|x y ks js' H F IH]; [destruct I|].
  destruct I as [->|I]; [exists y; split; [left; reflexivity|exact H]|]. destruct (IH I) as (j' & I' & R). exists j'. split; [right; exact I'|exact R].
Qed.
Lemma opt_some {A} (R : A -> A -> Prop) x y b : opt_related R x y -> y = Some b -> exists a, x = Some a /\ R a b.
Proof. intros H ->. destruct x as [a|]; [|destruct H]. exists a. auto. Qed.
Lemma rearranged_once js js' : rearranged js js' -> declared_once js -> declared_once js'.
Proof.
  intros R [T F I]. pose proof (rearranged_sym _ _ R) as R'. constructor.
  - destruct R as (ks & P & Fk). replace (List.map jt_name js') with (List.map jt_name ks).
    + eapply Permutation_NoDup; [apply Permutation_map; exact P|exact T].
    + clear - Fk. induction Fk as [|x y ks js H _ IH]; cbn; [reflexivity|]. rewrite (tr_name _ _ H), IH. reflexivity.
  - intros j' fs' Ij E. destruct (rearranged_in _ _ _ R' Ij) as (j & Jn & Tr). destruct (opt_some _ _ _ _ (opt_sym _ _ _ (@Permutation_sym _) (tr_fields _ _ Tr)) E) as (fs & E1 & P).
    eapply Permutation_NoDup; [apply Permutation_map; exact P|eauto].
  - intros j' fs' Ij E. destruct (rearranged_in _ _ _ R' Ij) as (j & Jn & Tr). destruct (opt_some _ _ _ _ (opt_sym _ _ _ (@Permutation_sym _) (tr_input _ _ Tr)) E) as (fs & E1 & P).
    eapply Permutation_NoDup; [apply Permutation_map; exact P|eauto].
Qed.
Lemma last_perm (fs fs' : list jfield) : Permutation fs fs' -> NoDup (List.map jf_name fs) -> forall n f, last_named jf_name n fs f -> last_named jf_name n fs' f.
Proof.
  intros P N n f H. destruct (last_named_in _ _ _ _ H) as [I <-]. apply once_last; [eapply Permutation_NoDup; [apply Permutation_map; exact P|exact N]|].
  apply (Permutation_in _ P). exact I.
Qed.
Lemma rearranged_added js js' : rearranged js js' -> declared_once js -> added js js'.
Proof.
  intros R D n j H. destruct (last_named_in _ _ _ _ H) as [I <-]. destruct (rearranged_in _ _ _ R I) as (j' & I' & Tr).
  exists j'. split; [rewrite <- (tr_name _ _ Tr); apply once_last; auto; exact (do_types _ (rearranged_once _ _ R D))|].
  destruct Tr as [Ek En Ed Po Ip Fi Em]. constructor; auto.
  - intros _. pose proof (do_fields _ D j) as N. destruct (jt_fields j) as [fs|], (jt_fields j') as [fs'|]; auto. cbn in Fi |- *. specialize (N fs I eq_refl).
    split; [apply last_perm; auto|]. intros Nn y Iy. apply Nn. apply (Permutation_in _ (Permutation_sym Fi)). exact Iy.
  - intros _. destruct (jt_possible_types j) as [ps|], (jt_possible_types j') as [ps'|]; auto. cbn in Po |- *. intros T.
    split; apply Permutation_in; [exact Po|apply Permutation_sym; exact Po].
  - intros _. pose proof (do_inputs _ D j) as N. destruct (jt_input_fields j) as [fs|], (jt_input_fields j') as [fs'|]; auto. cbn in Ip |- *. specialize (N fs I eq_refl).
    intros n f. split; apply last_perm; auto; [apply Permutation_sym; exact Ip|]. eapply Permutation_NoDup; [apply Permutation_map; exact Ip|exact N].
Qed.

(** Loading *)
Lemma fields_load fs m0 : (forall x, In x fs -> exists f, field_of_json x = Ok f) -> exists m, insert_fields fs m0 = Ok m.
Proof.
  revert m0. induction fs as [|x fs IH]; intros m0 H; [exists m0; reflexivity|]. cbn [insert_fields]. destruct (H x (or_introl eq_refl)) as (f & ->). apply IH. intros y I. apply H. right. exact I.
Qed.
Lemma fields_loaded fs m0 m : insert_fields fs m0 = Ok m -> forall x, In x fs -> exists f, field_of_json x = Ok f.
Proof.
  revert m0. induction fs as [|y fs IH]; intros m0 H x []; cbn [insert_fields] in H; destruct (field_of_json y) as [f|] eqn:E; try discriminate; [subst; eauto|eapply IH; eauto].
Qed.
Lemma fields_perm fs fs' b m : Permutation fs fs' -> get_fields_for_complex fs b = Ok m -> exists m', get_fields_for_complex fs' b = Ok m'.
Proof.
  unfold get_fields_for_complex. intros P H. apply fields_load. intros x I. eapply fields_loaded; [exact H|]. apply (Permutation_in _ (Permutation_sym P)). exact I.
Qed.
Lemma type_load j j' t : type_rearranged j j' -> type_of_json j = Ok t -> exists t', type_of_json j' = Ok t'.
Proof.
  intros [Ek En Ed Po Ip Fi Em]. unfold type_of_json. rewrite Ek, En.
  repeat match goal with |- context [if String.eqb (jt_kind j) ?k then _ else _] => destruct (String.eqb (jt_kind j) k) end; intros H; try discriminate; try (eexists; reflexivity).
  - destruct (jt_fields j) as [fs|]; [|discriminate]. destruct (jt_fields j') as [fs'|]; [|destruct Fi]. destruct (get_fields_for_complex fs true) as [m|] eqn:E; [|discriminate].
    destruct (fields_perm _ _ _ _ Fi E) as (m' & ->). eauto.
  - destruct (jt_enum_values j); [|discriminate]. destruct (jt_enum_values j'); [eauto|destruct Em].
  - destruct (jt_fields j) as [fs|]; [|discriminate]. destruct (jt_fields j') as [fs'|]; [|destruct Fi]. destruct (jt_possible_types j); [|discriminate].
    destruct (jt_possible_types j'); [|destruct Po]. destruct (get_fields_for_complex fs true) as [m|] eqn:E; [|discriminate]. destruct (fields_perm _ _ _ _ Fi E) as (m' & ->). eauto.
  - destruct (jt_input_fields j) as [fs|]; [|discriminate]. destruct (jt_input_fields j') as [fs'|]; [|destruct Ip]. destruct (get_fields_for_complex fs false) as [m|] eqn:E; [|discriminate].
    destruct (fields_perm _ _ _ _ Ip E) as (m' & ->). eauto.
  - destruct (jt_possible_types j); [|discriminate]. destruct (jt_possible_types j'); [eauto|destruct Po].
Qed.
Lemma types_load js m0 : (forall x, In x js -> exists t, type_of_json x = Ok t) -> exists m, load_types js m0 = Ok m.
Proof.
  revert m0. induction js as [|x js IH]; intros m0 H; [exists m0; reflexivity|]. cbn [load_types]. destruct (H x (or_introl eq_refl)) as (f & ->). apply IH. intros y I. apply H. right. exact I.
Qed.
Lemma types_loaded js m0 m : load_types js m0 = Ok m -> forall x, In x js -> exists t, type_of_json x = Ok t.
Proof.
  revert m0. induction js as [|y js IH]; intros m0 H x []; cbn [load_types] in H; destruct (type_of_json y) as [f|] eqn:E; try discriminate; [subst; eauto|eapply IH; eauto].
Qed.
Lemma rearranged_loads js js' s : rearranged js js' -> load_schema js = Ok s -> exists s', load_schema js' = Ok s'.
Proof.
  intros R H. apply types_load. intros j' I. destruct (rearranged_in _ _ _ (rearranged_sym _ _ R) I) as (j & J & Tr).
  destruct (types_loaded _ _ _ H j J) as (t & E). exact (type_load _ _ _ (type_rearranged_sym _ _ Tr) E).
Qed.

(** ** What is asked of a schema *)
Section Both.
  Variables s s' : schema.
  Hypothesis gr : grown s s'.
  Hypothesis rg : grown s' s.

  Lemma both_kind f : kind_agrees s f -> kind_agrees s' f.
  Proof.
    unfold kind_agrees. destruct (ft_def (sf_type f)); auto.
    - intros (fs & E). destruct (get_type s (ft_name (sf_type f))) as [t|] eqn:G; [|discriminate E]. injection E as E. destruct (gr _ _ G) as (t' & -> & Dg & _). rewrite E in Dg.
      inversion Dg; subst. cbn. eexists. f_equal. eauto.
    - intros (n & fs & ps & E). destruct (get_type s (ft_name (sf_type f))) as [t|] eqn:G; [|discriminate E]. injection E as E. destruct (gr _ _ G) as (t' & -> & Dg & _). rewrite E in Dg.
      inversion Dg; subst. cbn. do 3 eexists. f_equal. eauto.
    - intros (n & ps & fs & E). destruct (get_type s (ft_name (sf_type f))) as [t|] eqn:G; [|discriminate E]. injection E as E. destruct (gr _ _ G) as (t' & -> & Dg & _). rewrite E in Dg.
      inversion Dg; subst. cbn. do 3 eexists. f_equal. eauto.
    - intros (vs & E). destruct (get_type s (ft_name (sf_type f))) as [t|] eqn:G; [|discriminate E]. injection E as E. destruct (gr _ _ G) as (t' & -> & Dg & _). rewrite E in Dg.
      inversion Dg; subst. cbn. eexists. f_equal. eauto.
    - intros N C. apply N. exact (composite_grown _ _ rg _ C).
    - intros N C. apply N. exact (composite_grown _ _ rg _ C).
  Qed.
  Lemma both_consistent : consistent s -> consistent s'.
  Proof. intros C c n f F. apply both_kind. apply (C c n). exact (field_grown _ _ rg _ _ _ F). Qed.
  Lemma both_inputs : inputs_consistent s -> inputs_consistent s'.
  Proof.
    intros C n t' nm fs' G' E'. destruct (rg _ _ G') as (t & G & Dg & _). rewrite E' in Dg. inversion Dg as [| | | | |? ? fs P E1 E]; subst.
    destruct (C n t nm fs G (eq_sym E)) as (-> & N & K). split; [reflexivity|]. split.
    - eapply Permutation_NoDup; [apply Permutation_map; apply Permutation_sym; exact P|exact N].
    - intros fn f I. specialize (K fn f (Permutation_in _ P I)). unfold input_field_ok in *. destruct (ft_def (sf_type f)); auto.
      + destruct K as (vs & Ev). destruct (get_type s (ft_name (sf_type f))) as [u|] eqn:Gu; [|discriminate Ev]. injection Ev as Ev. destruct (gr _ _ Gu) as (u' & -> & Du & _). rewrite Ev in Du.
        inversion Du; subst. cbn. eexists. f_equal. eauto.
      + destruct K as (m & ms & Ev). destruct (get_type s (ft_name (sf_type f))) as [u|] eqn:Gu; [|discriminate Ev]. injection Ev as Ev. destruct (gr _ _ Gu) as (u' & -> & Du & _). rewrite Ev in Du.
        inversion Du; subst. cbn. do 2 eexists. f_equal. eauto.
  Qed.
  Lemma both_inhabited : inhabited_types s -> inhabited_types s'.
  Proof.
    intros H c n f F C. destruct (H c n f (field_grown _ _ rg _ _ _ F) (composite_grown _ _ rg _ C)) as (T & P). exists T. exact (possible_grown _ _ gr _ _ P).
  Qed.
  Lemma both_proper : proper_types s -> proper_types s'.
  Proof. intros H P T Po. apply (H P). exact (possible_grown _ _ rg _ _ Po). Qed.
End Both.
