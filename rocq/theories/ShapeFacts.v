(** Shape of the traversals that collection builds from an arbitrary document, valid or not:
    extending and inserting never meet a terminal where a complex traversal is expected. *)
From Verif Require Export CollectMain IrFacts.

Section Shape.
  Variable s : schema.
  Variable o : order.
  Hypothesis o_ok : order_ok o.

  Definition schema_field (f : sfield) : Prop := exists c n, field_of s c n f.

  Inductive shaped : ftrav -> string -> Prop :=
  | sh_term tn : ~ composite s tn -> shaped (FTerm tn) tn
  | sh_cplx tn lk objs :
      composite s tn -> NoDup (akeys objs) -> (forall T, In T (akeys objs) <-> possible s tn T) ->
      (forall T u, aget T objs = Some u -> NoDup (akeys u)) ->
      (forall T u k typ f tr, aget T objs = Some u -> aget (k, typ) u = Some (f, tr) ->
         ft_name (sf_type f) = typ /\ schema_field f) ->
      (forall T u k typ f tr, aget T objs = Some u -> aget (k, typ) u = Some (f, tr) -> shaped tr typ) ->
      shaped (FCplx tn lk objs) tn.

  Definition shaped_u (u : ufields) : Prop :=
    NoDup (akeys u) /\
    forall k typ f tr, aget (k, typ) u = Some (f, tr) ->
      ft_name (sf_type f) = typ /\ schema_field f /\ shaped tr typ.

  Lemma shaped_cplx tn lk objs :
    shaped (FCplx tn lk objs) tn <->
    composite s tn /\ NoDup (akeys objs) /\ (forall T, In T (akeys objs) <-> possible s tn T) /\
    forall T u, aget T objs = Some u -> shaped_u u.
  Proof.
    split.
    - intros H. inversion H as [|? ? ? C N Kp Nu F Sh]; subst. split; [auto|]. split; [auto|]. split; [auto|].
      intros T u E. split; [eauto|]. intros k typ f tr G. destruct (F _ _ _ _ _ _ E G). eauto.
    - intros (C & N & Kp & H). constructor; auto.
      + intros T u E. apply (H T u E).
      + intros T u k typ f tr E G. destruct (H T u E) as [_ X]. destruct (X _ _ _ _ G) as (A & B & _). auto.
      + intros T u k typ f tr E G. destruct (H T u E) as [_ X]. apply (X _ _ _ _ G).
  Qed.
  Lemma shaped_name tr tn : shaped tr tn ->
    (exists lk objs, tr = FCplx tn lk objs) /\ composite s tn \/ tr = FTerm tn /\ ~ composite s tn.
  Proof. intros H. inversion H; subst; [right|left]; split; eauto. Qed.

  Definition sh_extends (tr : ftrav) (typ : string) : Prop :=
    forall self p, shaped self typ -> exists tr', extend_ft o tr p self = (tr', None) /\ shaped tr' typ.

  Lemma sh_extend_u u1 u2 p i :
    shaped_u u1 -> shaped_u u2 ->
    (forall k typ f tr, aget (k, typ) u2 = Some (f, tr) -> sh_extends tr typ) ->
    exists u', fold_err (fun g u => g u)
                 (o (i :: p) _ (List.map (ent_step o i p) (indexed_from 0 u2))) u1 = (u', None) /\
               shaped_u u'.
  Proof.
    intros (N1 & S1) (N2 & S2) X.
    pose proof (o_ok (i :: p) _ (List.map (ent_step o i p) (indexed_from 0 u2))) as Pm.
    apply Permutation_sym, Permutation_map_inv in Pm. destruct Pm as (L & EL & PL).
    rewrite EL. rewrite fold_err_map.
    rewrite (fold_err_ext _ (fun x => upd (ent_h o p i x))) by (intros; apply ent_step_upd).
    rewrite <- (fold_err_map upd (ent_h o p i)).
    destruct (aget_steps u2 (ent_h o p i) (List.map (ent_h o p i) L) N2) as [NL HL].
    { reflexivity. } { apply Permutation_map. auto. }
    destruct (fold_upd (List.map (ent_h o p i) L) u1 NL N1) as (u' & F & N' & G).
    { intros k h I. apply In_aget in I; auto. specialize (HL k).
      destruct (aget k u2) as [[f tr]|] eqn:E2; [|congruence].
      destruct HL as [j HL]. rewrite HL in I. inversion I; subst h. cbn [ent_h snd fst].
      destruct k as [k typ]. destruct (aget (k, typ) u1) as [[f0 t0]|] eqn:E1.
      - destruct (S1 _ _ _ _ E1) as (_ & _ & R). destruct (X _ _ _ _ E2 t0 (j :: i :: p) R) as (tr' & Ex & _).
        rewrite Ex. cbn. split; auto. discriminate.
      - cbn. split; auto. }
    exists u'. split; [exact F|]. split; [auto|]. intros k typ f tr Hg. rewrite G in Hg.
    specialize (HL (k, typ)). destruct (aget (k, typ) u2) as [[f2 tr2]|] eqn:E2.
    - destruct HL as [j HL]. rewrite HL in Hg. cbn [ent_h snd fst] in Hg.
      destruct (aget (k, typ) u1) as [[f0 t0]|] eqn:E1.
      + destruct (S1 _ _ _ _ E1) as (A & B & R).
        destruct (X _ _ _ _ E2 t0 (j :: i :: p) R) as (tr' & Ex & R'). rewrite Ex in Hg. cbn in Hg.
        inversion Hg; subst. auto.
      + cbn in Hg. inversion Hg; subst. apply (S2 _ _ _ _ E2).
    - rewrite HL in Hg. apply (S1 _ _ _ _ Hg).
  Qed.

  Lemma sh_extend_objs oobjs sobjs p :
    NoDup (akeys oobjs) -> NoDup (akeys sobjs) ->
    (forall T u, aget T sobjs = Some u -> shaped_u u) ->
    (forall T u, aget T oobjs = Some u -> shaped_u u) ->
    (forall T u k typ f tr, aget T oobjs = Some u -> aget (k, typ) u = Some (f, tr) -> sh_extends tr typ) ->
    exists objs', fold_err co_update (o p _ (List.map (obj_step o p) (indexed_from 0 oobjs))) sobjs = (objs', None) /\
      NoDup (akeys objs') /\
      (forall T, In T (akeys objs') <-> In T (akeys sobjs)) /\
      forall T u, aget T objs' = Some u -> shaped_u u.
  Proof.
    intros N2 N1 R1 R2 X.
    pose proof (o_ok p _ (List.map (obj_step o p) (indexed_from 0 oobjs))) as Pm.
    set (l := o p _ (List.map (obj_step o p) (indexed_from 0 oobjs))) in *.
    rewrite (fold_err_ext _ (fun x => upd (obj_h x))) by (intros; apply co_update_upd).
    rewrite <- (fold_err_map upd obj_h).
    destruct (aget_steps oobjs (fun y => obj_h (obj_step o p y)) (List.map obj_h l) N2) as [NL HL].
    { reflexivity. } { rewrite <- (map_map (obj_step o p) obj_h). apply Permutation_map. auto. }
    destruct (fold_upd (List.map obj_h l) sobjs NL N1) as (m' & F & N' & G).
    { intros T h I. apply In_aget in I; auto. specialize (HL T).
      destruct (aget T oobjs) as [u2|] eqn:E2; [|congruence]. destruct HL as [j HL].
      rewrite HL in I. inversion I; subst h. cbn [obj_h obj_step fst snd].
      destruct (aget T sobjs) as [u1|] eqn:E1; [|cbn; auto].
      destruct (sh_extend_u u1 u2 p j (R1 _ _ E1) (R2 _ _ E2)) as (u' & Fu & _).
      { intros. eapply X; eauto. }
      rewrite Fu. cbn. split; auto. discriminate. }
    assert (Gt : forall T, match aget T sobjs with
                           | None => aget T m' = None
                           | Some _ => exists u', aget T m' = Some u' /\ shaped_u u' end).
    { intros T. rewrite G. specialize (HL T). destruct (aget T oobjs) as [u2|] eqn:E2.
      - destruct HL as [j HL]. rewrite HL. cbn [obj_h obj_step fst snd].
        destruct (aget T sobjs) as [u1|] eqn:E1; [|auto].
        destruct (sh_extend_u u1 u2 p j (R1 _ _ E1) (R2 _ _ E2)) as (u' & Fu & Ru).
        { intros. eapply X; eauto. }
        rewrite Fu. cbn. eauto.
      - rewrite HL. destruct (aget T sobjs) as [u1|] eqn:E1; eauto. }
    exists m'. split; [exact F|]. split; [auto|]. split.
    - intros T. specialize (Gt T). split; intros I; apply akeys_In_aget in I; destruct I as [v I].
      + destruct (aget T sobjs) eqn:E; [eapply aget_Some_key; eauto|congruence].
      + rewrite I in Gt. destruct Gt as (u' & Gt & _). eapply aget_Some_key; eauto.
    - intros T u E. specialize (Gt T). destruct (aget T sobjs); [|congruence].
      destruct Gt as (u' & Gt & Ru). congruence.
  Qed.

  Lemma sh_extend : forall tr typ, shaped tr typ -> sh_extends tr typ.
  Proof.
    induction 1 as [tn Nc|tn lk objs C N Kp Nu F Sh IH]; intros self p Hs.
    - destruct (shaped_name _ _ Hs) as [[(lk & objs & ->) C]|[-> _]]; [contradiction|].
      exists (FTerm tn). split; auto.
    - destruct (shaped_name _ _ Hs) as [[(lk' & objs' & ->) _]|[-> Nc]]; [|contradiction].
      rewrite extend_ft_cplx. apply shaped_cplx in Hs. destruct Hs as (_ & N' & K' & S').
      destruct (sh_extend_objs objs objs' p N N' S') as (m & E & Nm & Km & Sm).
      + intros T u E. split; [eauto|]. intros k typ f tr G. destruct (F _ _ _ _ _ _ E G). eauto.
      + intros. eapply IH; eauto.
      + match goal with |- context [fold_err co_update ?a ?b] =>
          replace (fold_err co_update a b) with (m, @None ir_error) by (symmetry; exact E) end.
        eexists. split; [reflexivity|]. apply shaped_cplx. split; [auto|]. split; [auto|]. split; [|auto].
        intros T. rewrite <- K'. apply Km.
  Qed.

  (** A parent during collection: name, lookup and concrete types stay the same *)
  Record shaped_ct (P : string) (keys : list string) (par : ctrav) : Prop := {
    sc_name : ct_name par = P;
    sc_lookup : lookup_of s P (ct_lookup par);
    sc_nodup : NoDup (akeys (ct_objs par));
    sc_keys : forall T, In T (akeys (ct_objs par)) <-> In T keys;
    sc_shape : forall T u, aget T (ct_objs par) = Some u -> shaped_u u }.

  Lemma shaped_ct_ft P keys par : shaped_ct P keys par -> (forall T, In T keys <-> possible s P T) ->
    shaped (ftrav_of_ctrav par) P.
  Proof.
    intros [A B N K R] Kp. unfold ftrav_of_ctrav. rewrite A. apply shaped_cplx.
    split; [eapply lookup_composite; eauto|]. split; [auto|]. split; [|auto]. intros T. rewrite K. apply Kp.
  Qed.

  Lemma sh_uf_insert u k f tr q :
    shaped_u u -> schema_field f -> shaped tr (ft_name (sf_type f)) ->
    exists u', uf_insert_with (extend_ft o tr q) (k, ft_name (sf_type f)) f tr u = (u', None) /\ shaped_u u'.
  Proof.
    intros (N1 & S1) Sf Rt. unfold uf_insert_with.
    destruct (aget (k, ft_name (sf_type f)) u) as [[f0 t0]|] eqn:E.
    - destruct (S1 _ _ _ _ E) as (A & B & R0).
      destruct (sh_extend tr _ Rt t0 q R0) as (tr' & Ex & R'). rewrite Ex.
      eexists. split; [reflexivity|]. split; [apply NoDup_aset; auto|].
      intros k' typ' f' tr''. rewrite aget_aset. destruct (eqb (k', typ') (k, ft_name (sf_type f))) eqn:E2.
      + apply eqb_ok in E2. inversion E2; subst k' typ'. intros H. inversion H; subst f' tr''. auto.
      + intros H. apply (S1 _ _ _ _ H).
    - eexists. split; [reflexivity|]. split; [apply NoDup_aset; auto|].
      intros k' typ' f' tr''. rewrite aget_aset. destruct (eqb (k', typ') (k, ft_name (sf_type f))) eqn:E2.
      + apply eqb_ok in E2. inversion E2; subst k' typ'. intros H. inversion H; subst f' tr''. auto.
      + intros H. apply (S1 _ _ _ _ H).
  Qed.

  Lemma sh_insert_all P keys par k f tr q :
    shaped_ct P keys par -> schema_field f -> shaped tr (ft_name (sf_type f)) ->
    exists par', insert_all o q k (ft_name (sf_type f)) f tr par = (par', None) /\ shaped_ct P keys par'.
  Proof.
    intros [A B N K R] Sf Rt. unfold insert_all.
    pose proof (o_ok (0 :: q) _ (index_list (akeys (ct_objs par)))) as Pm.
    set (l := o (0 :: q) _ (index_list (akeys (ct_objs par)))) in *.
    set (hh := fun x : nat * string => obj_h (snd x, uf_insert_with (extend_ft o tr (fst x :: 1 :: q))
                 (k, ft_name (sf_type f)) f tr)).
    rewrite (fold_err_ext _ (fun x => upd (hh x))) by (intros; apply co_update_upd).
    rewrite <- (fold_err_map upd hh).
    assert (Ek : akeys (List.map hh l) = List.map snd l).
    { unfold akeys. rewrite map_map. apply map_ext. auto. }
    assert (Pk : Permutation (akeys (ct_objs par)) (List.map snd l)).
    { rewrite <- (index_list_map_snd (akeys (ct_objs par))). apply Permutation_map. auto. }
    assert (Nl : NoDup (akeys (List.map hh l))).
    { rewrite Ek. eapply Permutation_NoDup; eauto. }
    assert (Hh : forall T h, aget T (List.map hh l) = Some h -> exists j, h = snd (hh (j, T))).
    { intros T h H. apply aget_In in H. apply in_map_iff in H. destruct H as [[j T'] [H I]].
      unfold hh, obj_h in H. cbn in H. inversion H; subst. exists j. reflexivity. }
    destruct (fold_upd (List.map hh l) (ct_objs par) Nl N) as (m' & F & N' & G).
    { intros T h I. apply In_aget in I; auto. destruct (Hh T h I) as [j ->]. cbn [hh obj_h fst snd].
      destruct (aget T (ct_objs par)) as [u|] eqn:E; [|cbn; auto].
      destruct (sh_uf_insert u k f tr (j :: 1 :: q) (R _ _ E) Sf Rt) as (u' & Eu & _).
      rewrite Eu. cbn. split; auto. discriminate. }
    rewrite F. eexists. split; [reflexivity|].
    assert (Gt : forall T, match aget T (ct_objs par) with
                           | Some _ => exists u', aget T m' = Some u' /\ shaped_u u'
                           | None => aget T m' = None end).
    { intros T. rewrite G. destruct (aget T (ct_objs par)) as [u|] eqn:E.
      - destruct (aget T (List.map hh l)) as [h|] eqn:Eh; [|eauto].
        destruct (Hh T h Eh) as [j ->]. cbn [hh obj_h fst snd].
        destruct (sh_uf_insert u k f tr (j :: 1 :: q) (R _ _ E) Sf Rt) as (u' & Eu & Ru).
        rewrite Eu. cbn. eauto.
      - destruct (aget T (List.map hh l)) as [h|] eqn:Eh; auto.
        destruct (Hh T h Eh) as [j ->]. reflexivity. }
    constructor; cbn; auto.
    - intros T. rewrite <- K. specialize (Gt T). split; intros I.
      + apply akeys_In_aget in I. destruct I as [v I].
        destruct (aget T (ct_objs par)) eqn:E; [eapply aget_Some_key; eauto|congruence].
      + apply akeys_In_aget in I. destruct I as [v I]. rewrite I in Gt. destruct Gt as (u' & Gt & _).
        eapply aget_Some_key; eauto.
    - intros T u E. specialize (Gt T). destruct (aget T (ct_objs par)) eqn:E1; [|congruence].
      destruct Gt as (u' & Gt & Ru). rewrite E in Gt. inversion Gt; subst. auto.
  Qed.

  Lemma sh_extend_ct P keys par c keys2 sub q :
    shaped_ct P keys par -> shaped_ct c keys2 sub ->
    exists par', extend_ct o q par sub = (par', None) /\ shaped_ct P keys par'.
  Proof.
    intros [A B N K R] [A2 B2 N2 K2 R2]. unfold extend_ct, ftrav_of_ctrav. rewrite extend_ft_cplx.
    destruct (sh_extend_objs (ct_objs sub) (ct_objs par) q N2 N R R2) as (m' & F & Nm & Km & G).
    { intros T u k typ f tr E Eg. apply sh_extend. destruct (R2 T u E) as (_ & S2). apply (S2 _ _ _ _ Eg). }
    match goal with |- context [fold_err co_update ?a ?b] =>
      replace (fold_err co_update a b) with (m', @None ir_error) by (symmetry; exact F) end.
    eexists. split; [reflexivity|]. constructor; cbn; auto.
    intros T. rewrite <- K. apply Km.
  Qed.

  Lemma sh_new c p par : new_ctrav s c p = Ok par ->
    composite s c /\ shaped_ct c (akeys (ct_objs par)) par /\
    (forall T, In T (akeys (ct_objs par)) <-> possible s c T).
  Proof.
    intros E. set (cx := {| cx_schema := s; cx_deprecations := false; cx_frags := []; cx_order := o |}).
    assert (C : composite s c) by (eapply (new_ctrav_inv cx); eauto).
    destruct (new_ctrav_ok cx c p C) as (par' & E' & A & B & N & K & Z). cbn in *.
    rewrite E in E'. inversion E'; subst par'. split; [auto|]. split; [|auto].
    constructor; auto; try reflexivity. intros T u G. rewrite (Z T u G).
    split; [constructor|]. intros; discriminate.
  Qed.
  Definition input_object (c : string) : Prop :=
    exists t n fs, get_type s c = Some t /\ st_def t = TInputObject n fs.
  Lemma new_ctrav_err c p e : new_ctrav s c p = Err e ->
    ~ composite s c /\ (e = EMissingType c /\ get_type s c = None \/
                        e = ESelectionSetOnWrongType c p /\ (exists t, get_type s c = Some t /\
                           match st_def t with TScalar _ | TEnum _ => True | _ => False end) \/
                        e = EUnexpectedComplexTraversal c /\ input_object c).
  Proof.
    unfold new_ctrav, composite, input_object. destruct (get_type s c) as [t|].
    - intros H. split.
      + intros (t' & Et & F). inversion Et; subst t'. destruct (st_def t); try contradiction; cbn in H; discriminate H.
      + right. destruct (st_def t) eqn:D; cbn in H; try discriminate H; inversion H; subst;
          first [left; split; [reflexivity|exists t; rewrite D; auto] | right; eauto 8].
    - intros H. inversion H; subst. split; [intros (t & F & _); discriminate|]. auto.
  Qed.
End Shape.

Lemma sh_clone cx P keys par c pth p js sub ws :
  clone_for_type_spread cx pth par c p js = Ok (sub, ws) ->
  shaped_ct (cx_schema cx) P keys par ->
  composite (cx_schema cx) c /\ shaped_ct (cx_schema cx) c (akeys (ct_objs sub)) sub /\
  (forall T, In T (akeys (ct_objs sub)) <-> possible (cx_schema cx) c T /\ In T keys) /\
  ws = if negb (is_fully_jumped js) && match akeys (ct_objs sub) with [] => true | _ => false end
       then [WOverFragmentNarrowing p (cx_order cx pth _ (akeys (ct_objs par))) c] else [].
Proof.
  intros E [A B N K R]. unfold clone_for_type_spread in E.
  destruct (new_ctrav (cx_schema cx) c p) as [base|e] eqn:En; [|discriminate].
  destruct (sh_new _ (cx_order cx) _ _ _ En) as (C & [Ab Bb Nb Kb Rb] & Kp). inversion E; subst sub ws. clear E. cbn [ct_objs].
  set (g := fun T => amem T (ct_objs par)).
  assert (Kf : akeys (filter (fun x => amem (fst x) (ct_objs par)) (ct_objs base)) = filter g (akeys (ct_objs base)))
    by apply (akeys_filter g).
  split; [auto|]. split; [|split].
  - constructor; cbn [ct_name ct_lookup ct_objs]; auto.
    + rewrite Kf. apply NoDup_filter. auto.
    + reflexivity.
    + intros T u Eg. apply (aget_filter g) in Eg. apply (Rb T u Eg).
  - intros T. rewrite Kf, filter_In, Kp. unfold g. rewrite amem_spec, K. tauto.
  - destruct (filter _ (ct_objs base)) as [|[? ?] ?]; auto.
Qed.
Lemma clone_err cx pth par c p js e :
  clone_for_type_spread cx pth par c p js = Err e -> new_ctrav (cx_schema cx) c p = Err e.
Proof.
  unfold clone_for_type_spread. destruct (new_ctrav _ c p); [|congruence]. discriminate.
Qed.
