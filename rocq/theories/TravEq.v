(** Collecting selections with different hash-map iteration orders: the results are equal as maps. *)
From Verif Require Export IrFacts.

Inductive teq : ftrav -> ftrav -> Prop :=
| teq_term n : teq (FTerm n) (FTerm n)
| teq_cplx n lk (a b : amap string ufields) :
    NoDup (akeys a) -> NoDup (akeys b) ->
    (forall T, aget T a = None <-> aget T b = None) ->
    (forall T u v, aget T a = Some u -> aget T b = Some v -> NoDup (akeys u) /\ NoDup (akeys v)) ->
    (forall T u v k, aget T a = Some u -> aget T b = Some v -> (aget k u = None <-> aget k v = None)) ->
    (forall T u v k f t f' t', aget T a = Some u -> aget T b = Some v ->
       aget k u = Some (f, t) -> aget k v = Some (f', t') -> f = f') ->
    (forall T u v k f t f' t', aget T a = Some u -> aget T b = Some v ->
       aget k u = Some (f, t) -> aget k v = Some (f', t') -> teq t t') ->
    teq (FCplx n lk a) (FCplx n lk b).

(** Maps with related values *)
Definition mrel {K V} {HK : EqB K} (R : V -> V -> Prop) (a b : amap K V) : Prop :=
  NoDup (akeys a) /\ NoDup (akeys b) /\
  forall k, match aget k a, aget k b with
            | None, None => True
            | Some x, Some y => R x y
            | _, _ => False
            end.
Definition erel (x y : sfield * ftrav) : Prop := fst x = fst y /\ teq (snd x) (snd y).
Definition urel : ufields -> ufields -> Prop := mrel erel.
Definition orel : amap string ufields -> amap string ufields -> Prop := mrel urel.

Lemma teq_orel n lk (a : amap string ufields) n' lk' (b : amap string ufields) : teq (FCplx n lk a) (FCplx n' lk' b) <-> n = n' /\ lk = lk' /\ orel a b.
Proof.
  split.
  - intros H. inversion H as [|n0 lk0 a0 b0 Na Nb Ka Nu Ku Kf Kt]; subst. split; auto. split; auto. split; [auto|]. split; [auto|].
    intros T. specialize (Ka T). destruct (aget T a) as [u|] eqn:Ea; destruct (aget T b) as [v|] eqn:Eb; auto.
    + destruct (Nu T u v Ea Eb) as [N1 N2]. split; [auto|]. split; [auto|]. intros k. specialize (Ku T u v k Ea Eb).
      destruct (aget k u) as [[f t]|] eqn:E1; destruct (aget k v) as [[f' t']|] eqn:E2; auto.
      * split; cbn; [eapply (Kf T u v k f t f' t'); eauto|eapply (Kt T u v k f t f' t'); eauto].
      * destruct Ku as [_ Ku]. discriminate (Ku eq_refl).
      * destruct Ku as [Ku _]. discriminate (Ku eq_refl).
    + destruct Ka as [_ Ka]. discriminate (Ka eq_refl).
    + destruct Ka as [Ka _]. discriminate (Ka eq_refl).
  - intros (<- & <- & Na & Nb & H). constructor; auto.
    + intros T. specialize (H T). destruct (aget T a), (aget T b); try tauto; split; discriminate.
    + intros T u v Ea Eb. specialize (H T). rewrite Ea, Eb in H. destruct H as (N1 & N2 & _). auto.
    + intros T u v k Ea Eb. specialize (H T). rewrite Ea, Eb in H. destruct H as (_ & _ & H). specialize (H k).
      destruct (aget k u), (aget k v); try tauto; split; discriminate.
    + intros T u v k f t f' t' Ea Eb E1 E2. specialize (H T). rewrite Ea, Eb in H. destruct H as (_ & _ & H). specialize (H k).
      rewrite E1, E2 in H. apply H.
    + intros T u v k f t f' t' Ea Eb E1 E2. specialize (H T). rewrite Ea, Eb in H. destruct H as (_ & _ & H). specialize (H k).
      rewrite E1, E2 in H. apply H.
Qed.

Lemma teq_sym x y : teq x y -> teq y x.
Proof.
  induction 1 as [n|n lk a b Na Nb Ka Nu Ku Kf Kt IH]; constructor; auto.
  - intros T. symmetry. auto.
  - intros T u v Ea Eb. destruct (Nu T v u Eb Ea). auto.
  - intros T u v k Ea Eb. symmetry. eauto.
  - intros. symmetry. eauto.
  - intros T u v k f t f' t' Ea Eb E1 E2. eapply (IH T v u k f' t' f t); eauto.
Qed.
Lemma orel_sym a b : orel a b -> orel b a.
Proof. intros H. assert (X : teq (FCplx "" [] a) (FCplx "" [] b)) by (apply teq_orel; auto). apply teq_sym in X. apply teq_orel in X. apply X. Qed.

(** *** Loops of independent updates *)
Section Loops.
  Context {K V Er : Type} {HKe : EqB K} {HK : EqBOk K}.
  Notation step := (K * (option V -> option V * option Er))%type.

  (** No step deletes: only missing entries can stay missing *)
  Definition keeps (l : list step) : Prop := forall k h ov, In (k, h) l -> fst (h ov) = None -> ov = None.

  Lemma fold_upd_ok (l : list step) : forall m m' : amap K V, NoDup (akeys l) -> NoDup (akeys m) -> keeps l ->
    fold_err upd l m = (m', None) -> forall k h, In (k, h) l -> snd (h (aget k m)) = None.
  Proof.
    induction l as [|[k0 h0] l IH]; intros m m' Nl Nm Kp F k h I; [destruct I|].
    inversion Nl as [|? ? Nk Nl']; subst. cbn [fold_err] in F. unfold upd at 1 in F. cbn [fst snd] in F.
    destruct (h0 (aget k0 m)) as [ov e] eqn:Eh.
    assert (e = None) as ->. { destruct ov; destruct e; auto; discriminate. }
    destruct I as [I|I]; [inversion I; subst; rewrite Eh; auto|].
    assert (Hk : k <> k0). { intros ->. apply Nk. apply (in_map fst) in I. auto. }
    destruct ov as [v|].
    - rewrite <- (aget_aset_other k0 k v m Hk). eapply (IH (aset k0 v m)); eauto; [apply NoDup_aset; auto|].
      intros k1 h1 ov1 J. apply (Kp k1 h1 ov1). right. auto.
    - eapply IH; eauto. intros k1 h1 ov1 J. apply (Kp k1 h1 ov1). right. auto.
  Qed.

  (** Two loops over the same keys with related steps, started in related maps *)
  Lemma fold_rel (R : V -> V -> Prop) (l l' : list step) (m m' r : amap K V) :
    NoDup (akeys l) -> NoDup (akeys l') -> keeps l -> keeps l' -> mrel R m m' ->
    (forall k, In k (akeys l) <-> In k (akeys l')) ->
    (forall k h h' ov ov', In (k, h) l -> In (k, h') l' -> ov = aget k m -> ov' = aget k m' ->
       match ov, ov' with None, None => True | Some x, Some y => R x y | _, _ => False end ->
       snd (h ov) = None ->
       snd (h' ov') = None /\ match fst (h ov), fst (h' ov') with None, None => True | Some x, Some y => R x y | _, _ => False end) ->
    fold_err upd l m = (r, None) ->
    exists r', fold_err upd l' m' = (r', None) /\ mrel R r r'.
  Proof.
    intros Nl Nl' Kp Kp' (Nm & Nm' & Rm) Kk H F.
    pose proof (fold_upd_ok l m r Nl Nm Kp F) as Ok.
    destruct (fold_upd l m Nl Nm) as (r1 & F1 & N1 & G1).
    { intros k h I. split; [eapply Ok; eauto|]. eapply Kp; eauto. }
    rewrite F in F1. injection F1 as <-.
    destruct (fold_upd l' m' Nl' Nm') as (r' & F' & N' & G').
    { intros k h' I. split; [|eapply Kp'; eauto].
      assert (J : In k (akeys l)). { apply Kk. apply (in_map fst) in I. auto. }
      apply akeys_In_aget in J. destruct J as [h J]. apply aget_In in J.
      eapply (H k h h'); eauto. apply Rm. }
    exists r'. split; auto. split; auto. split; auto. intros k. rewrite G1, G'.
    destruct (aget k l) as [h|] eqn:E.
    - assert (J : In k (akeys l')). { apply Kk. eapply aget_Some_key; eauto. }
      apply akeys_In_aget in J. destruct J as [h' J]. rewrite J. apply aget_In in E, J.
      destruct (H k h h' _ _ E J eq_refl eq_refl (Rm k) (Ok _ _ E)) as [_ X]. exact X.
    - assert (aget k l' = None) as ->. { apply aget_None. intros J. apply Kk in J. apply aget_None in E. auto. } apply Rm.
  Qed.
End Loops.

(** *** Extending *)
Section Extend.
  Variables o o' : order.
  Hypothesis O : order_ok o.
  Hypothesis O' : order_ok o'.

  Definition ext_good (other other' : ftrav) : Prop := forall self self' p p' t,
    teq self self' -> extend_ft o other p self = (t, None) ->
    exists t', extend_ft o' other' p' self' = (t', None) /\ teq t t'.

  Lemma ents_form oo (Oo : order_ok oo) i p (u : ufields) (x : ufields) : NoDup (akeys u) ->
    exists L, Permutation (indexed_from 0 u) L /\ NoDup (akeys (List.map (ent_h oo p i) L)) /\
      fold_err (fun g u => g u) (oo (i :: p) _ (List.map (ent_step oo i p) (indexed_from 0 u))) x =
      fold_err upd (List.map (ent_h oo p i) L) x.
  Proof.
    intros N. destruct (order_map oo Oo (i :: p) (ent_step oo i p) (indexed_from 0 u)) as (L & PL & EL).
    exists L. split; auto. split.
    - destruct (aget_steps u (ent_h oo p i) (List.map (ent_h oo p i) L) N) as [NL _]; auto. apply Permutation_map. auto.
    - rewrite EL, fold_err_map.
      rewrite (fold_err_ext _ (fun x => upd (ent_h oo p i x))) by (intros; apply ent_step_upd).
      rewrite <- (fold_err_map upd (ent_h oo p i)). reflexivity.
  Qed.
  Lemma in_ents oo p i (u : ufields) L k h : Permutation (indexed_from 0 u) L -> In (k, h) (List.map (ent_h oo p i) L) ->
    exists j f tr, In (k, (f, tr)) u /\ h = snd (ent_h oo p i (j, (k, (f, tr)))).
  Proof.
    intros PL I. apply in_map_iff in I. destruct I as ((j & (k' & (f & tr))) & E & I). inversion E; subst.
    apply (Permutation_in _ (Permutation_sym PL)) in I. apply (in_map snd) in I. rewrite indexed_snd in I. cbn in I. exists j, f, tr. auto.
  Qed.
  Lemma keys_ents oo p i (u : ufields) L k : Permutation (indexed_from 0 u) L ->
    (In k (akeys (List.map (ent_h oo p i) L)) <-> In k (akeys u)).
  Proof.
    intros PL. unfold akeys at 1. rewrite map_map. cbn [ent_h fst]. rewrite <- (map_map snd fst).
    assert (Pm : Permutation u (List.map snd L)). { rewrite <- (indexed_snd 0 u) at 1. apply Permutation_map. auto. }
    split; intros I; (eapply Permutation_in; [|exact I]); apply Permutation_map; [apply Permutation_sym|]; auto.
  Qed.
  Lemma keeps_ents oo p i L : keeps (List.map (ent_h oo p i) L).
  Proof.
    intros k h ov I E. apply in_map_iff in I. destruct I as ((j & (k' & (f & tr))) & Eq & _). inversion Eq; subst. cbn [fst snd] in E.
    destruct ov as [[f0 t0]|]; auto. destruct (extend_ft _ _ _ t0). discriminate.
  Qed.

  Lemma u_good i p i' p' (w w' u u' r : ufields) : urel w w' -> urel u u' ->
    (forall k f t f' t', aget k u = Some (f, t) -> aget k u' = Some (f', t') -> ext_good t t') ->
    fold_err (fun g u => g u) (o (i :: p) _ (List.map (ent_step o i p) (indexed_from 0 u))) w = (r, None) ->
    exists r', fold_err (fun g u => g u) (o' (i' :: p') _ (List.map (ent_step o' i' p') (indexed_from 0 u'))) w' = (r', None) /\ urel r r'.
  Proof.
    intros Rw (Nu & Nu' & Ru) X F.
    destruct (ents_form o O i p u w Nu) as (L & PL & NL & EL).
    destruct (ents_form o' O' i' p' u' w' Nu') as (L' & PL' & NL' & EL').
    rewrite EL in F. rewrite EL'.
    apply (fold_rel erel (List.map (ent_h o p i) L) (List.map (ent_h o' p' i') L') w w' r); auto using keeps_ents.
    - intros k. eapply iff_trans; [exact (keys_ents o p i u L k PL)|]. eapply iff_trans; [|exact (iff_sym (keys_ents o' p' i' u' L' k PL'))].
      specialize (Ru k). split; intros I; apply akeys_In_aget in I; destruct I as [v I]; rewrite I in Ru.
      + destruct (aget k u') eqn:E; [eapply aget_Some_key; eauto|destruct Ru].
      + destruct (aget k u) eqn:E; [eapply aget_Some_key; eauto|destruct Ru].
    - intros k h h' ov ov' I I' _ _ Rv Hn.
      destruct (in_ents o p i u L k h PL I) as (j & f & tr & J & ->).
      destruct (in_ents o' p' i' u' L' k h' PL' I') as (j' & f' & tr' & J' & ->).
      apply In_aget in J; auto. apply In_aget in J'; auto.
      pose proof (Ru k) as Rk. rewrite J, J' in Rk. destruct Rk as [Ef Et]. cbn [fst snd] in Ef, Et.
      cbn [ent_h fst snd] in *. destruct ov as [[f0 t0]|]; destruct ov' as [[f0' t0']|]; try contradiction.
      + destruct Rv as [E0 T0]. cbn [fst snd] in E0, T0. subst f0'.
        destruct (extend_ft o tr (j :: i :: p) t0) as [t1 e] eqn:Ex. cbn [snd] in Hn. subst e.
        destruct (X k f tr f' tr' J J' t0 t0' (j :: i :: p) (j' :: i' :: p') t1 T0 Ex) as (t1' & Ex' & T1).
        rewrite Ex'. cbn. split; auto. split; auto.
      + cbn. split; auto. split; auto.
  Qed.

  Lemma objs_form oo (Oo : order_ok oo) p (a x : amap string ufields) : NoDup (akeys a) ->
    exists L, Permutation (indexed_from 0 a) L /\ NoDup (akeys (List.map (fun y => obj_h (obj_step oo p y)) L)) /\
      fold_err co_update (oo p _ (List.map (obj_step oo p) (indexed_from 0 a))) x =
      fold_err upd (List.map (fun y => obj_h (obj_step oo p y)) L) x.
  Proof.
    intros N. destruct (order_map oo Oo p (obj_step oo p) (indexed_from 0 a)) as (L & PL & EL).
    exists L. split; auto. split.
    - destruct (aget_steps a (fun y => obj_h (obj_step oo p y)) (List.map (fun y => obj_h (obj_step oo p y)) L) N) as [NL _]; auto.
      apply Permutation_map. auto.
    - rewrite EL, fold_err_map.
      rewrite (fold_err_ext _ (fun y => upd (obj_h (obj_step oo p y)))) by (intros; apply co_update_upd).
      rewrite <- (fold_err_map upd (fun y => obj_h (obj_step oo p y))). reflexivity.
  Qed.
  Lemma keeps_obj {A} (g : A -> string * (ufields -> ufields * option ir_error)) L : keeps (List.map (fun y => obj_h (g y)) L).
  Proof.
    intros k h ov I E. apply in_map_iff in I. destruct I as (y & Eq & _). inversion Eq; subst.
    destruct ov as [u|]; auto. destruct (snd (g y) u). discriminate.
  Qed.

  Lemma objs_good p p' (a b a' b' r : amap string ufields) : orel a a' -> orel b b' ->
    (forall T u u' k f t f' t', aget T b = Some u -> aget T b' = Some u' -> aget k u = Some (f, t) -> aget k u' = Some (f', t') -> ext_good t t') ->
    fold_err co_update (o p _ (List.map (obj_step o p) (indexed_from 0 b))) a = (r, None) ->
    exists r', fold_err co_update (o' p' _ (List.map (obj_step o' p') (indexed_from 0 b'))) a' = (r', None) /\ orel r r'.
  Proof.
    intros Ra (Nb & Nb' & Rb) X F.
    destruct (objs_form o O p b a Nb) as (L & PL & NL & EL).
    destruct (objs_form o' O' p' b' a' Nb') as (L' & PL' & NL' & EL').
    rewrite EL in F. rewrite EL'.
    assert (Kk : forall oo q c L k, Permutation (indexed_from 0 c) L ->
       (In k (akeys (List.map (fun y => obj_h (obj_step oo q y)) L)) <-> In k (akeys c))).
    { intros oo q c L0 k P0. unfold akeys at 1. rewrite map_map. cbn [obj_h obj_step fst]. rewrite <- (map_map snd fst).
      assert (Pm : Permutation c (List.map snd L0)). { rewrite <- (indexed_snd 0 c) at 1. apply Permutation_map. auto. }
      split; intros I; (eapply Permutation_in; [|exact I]); apply Permutation_map; [apply Permutation_sym|]; auto. }
    assert (Ii : forall oo q c L k h, Permutation (indexed_from 0 c) L -> In (k, h) (List.map (fun y => obj_h (obj_step oo q y)) L) ->
       exists j u, In (k, u) c /\ h = snd (obj_h (obj_step oo q (j, (k, u))))).
    { intros oo q c L0 k h P0 I. apply in_map_iff in I. destruct I as ((j & (k' & u)) & E & I). inversion E; subst.
      apply (Permutation_in _ (Permutation_sym P0)) in I. apply (in_map snd) in I. rewrite indexed_snd in I. cbn in I. exists j, u. auto. }
    apply (fold_rel urel (List.map (fun y => obj_h (obj_step o p y)) L) (List.map (fun y => obj_h (obj_step o' p' y)) L') a a' r); auto using keeps_obj.
    - intros k. eapply iff_trans; [exact (Kk o p b L k PL)|]. eapply iff_trans; [|exact (iff_sym (Kk o' p' b' L' k PL'))].
      specialize (Rb k). split; intros I; apply akeys_In_aget in I; destruct I as [v I]; rewrite I in Rb.
      + destruct (aget k b') eqn:E; [eapply aget_Some_key; eauto|destruct Rb].
      + destruct (aget k b) eqn:E; [eapply aget_Some_key; eauto|destruct Rb].
    - intros k h h' ov ov' I I' _ _ Rv Hn.
      destruct (Ii o p b L k h PL I) as (j & u & J & ->). destruct (Ii o' p' b' L' k h' PL' I') as (j' & u' & J' & ->).
      apply In_aget in J; auto. apply In_aget in J'; auto.
      pose proof (Rb k) as Rk. rewrite J, J' in Rk. cbn [obj_h obj_step fst snd] in *.
      destruct ov as [w|]; destruct ov' as [w'|]; try contradiction; [|cbn; auto].
      match type of Hn with context [fold_err ?g ?l w] => destruct (fold_err g l w) as [w1 e] eqn:Ex end.
      cbn [snd] in Hn. subst e.
      destruct (u_good j p j' p' w w' u u' w1 Rv Rk) as (w1' & Ex' & R1); auto.
      { intros k0 f t f' t' E1 E2. eapply X; eauto. }
      match goal with |- context [fold_err ?g ?l w'] => replace (fold_err g l w') with (w1', @None ir_error) by (symmetry; exact Ex') end.
      cbn. auto.
  Qed.

  Theorem extend_teq : forall other other', teq other other' -> ext_good other other'.
  Proof.
    induction 1 as [n|n lk b b' Nb Nb' Kb Nu Ku Kf Kt IH]; intros self self' p p' t H E.
    - cbn [extend_ft] in *. destruct self as [m|m l ob]; [|discriminate]. injection E as <-.
      inversion H; subst. eauto.
    - assert (Rb : teq (FCplx n lk b) (FCplx n lk b')) by (constructor; auto). apply teq_orel in Rb. destruct Rb as (_ & _ & Rb).
      destruct self as [m|m l a]; [discriminate E|]. inversion H as [|m0 l0 a0 a' ]; subst. apply teq_orel in H. destruct H as (_ & _ & Ra).
      rewrite extend_ft_cplx in *.
      match type of E with context [fold_err ?g ?l ?x] => destruct (fold_err g l x) as [r e] eqn:F end.
      injection E as <- ->.
      destruct (objs_good p p' a b a' b' r Ra Rb) as (r' & F' & R); auto.
      match goal with |- context [fold_err ?g ?l ?x] => replace (fold_err g l x) with (r', @None ir_error) by (symmetry; exact F') end.
      eexists. split; [reflexivity|]. apply teq_orel. auto.
  Qed.
End Extend.
