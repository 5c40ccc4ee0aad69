(** From shaped traversals to the intermediate representation: conversion never fails. *)
From Verif Require Export SpecShape SelRunFacts.

Section IrShape.
  Variable s : schema.
  Variable o : order.
  Hypothesis o_ok : order_ok o.
  Hypothesis cons_ok : consistent s.

  Definition ir_shaped (tr : ftrav) (tn : string) : Prop :=
    forall f p, fdef_is_complex (ft_def (sf_type f)) = true -> ft_def (sf_type f) <> FDInputObject ->
      composite s tn -> exists cs, type_ir o p f tr = Ok (IComplex cs) /\ coll_shape s tn cs.

  Lemma type_ir_leaf_shape p f tr :
    kind_agrees s f -> ~ composite s (ft_name (sf_type f)) ->
    exists t, type_ir o p f tr = Ok t /\ ty_shape s f t.
  Proof.
    intros K C. destruct (type_ir_leaf s [] o p f tr (fun _ => False) K C) as (t & E & H).
    exists t. split; auto. inversion H; subst; try (constructor; auto; fail).
    exfalso. apply C. unfold kind_agrees in K.
    destruct (ft_def (sf_type f)); try discriminate; try contradiction; unfold composite; destruct (get_type s _) as [t0|]; cbn in K;
      repeat match type of K with ex _ => let x := fresh in destruct K as [x K] end; try discriminate;
      exists t0; inversion K as [K']; rewrite K'; auto.
  Qed.

  Lemma conv_u_shape u i p :
    shaped_u s u ->
    (forall k typ f tr, aget (k, typ) u = Some (f, tr) -> ir_shaped tr typ) ->
    exists fs', collect_res (o (i :: p) _ (List.map (conv_ent o i p) (indexed_from 0 u))) = Ok fs' /\
      fields_shape s (sort_by irf_prop fs').
  Proof.
    intros (N & S1) G.
    destruct (order_map o o_ok (i :: p) (conv_ent o i p) (indexed_from 0 u)) as (l & Pm & El).
    rewrite El.
    assert (In_u : forall j k typ f tr, In (j, ((k, typ), (f, tr))) l -> aget (k, typ) u = Some (f, tr)).
    { intros j k typ f tr I. apply In_aget; auto. rewrite <- (indexed_snd 0 u).
      apply (Permutation_in _ (Permutation_sym Pm)) in I. apply (in_map snd) in I. auto. }
    destruct (collect_res_total (conv_ent o i p) l
      (fun x y => exists t, y = mk_irfield (fst (fst (snd x)), fst (snd (snd x)), t) /\
                  ty_shape s (fst (snd (snd x))) t))
      as (ys & Ey & F).
    { intros (j & ((k & typ) & (f & tr))) I. apply In_u in I. cbn [fst snd].
      destruct (S1 _ _ _ _ I) as (A & (c0 & n0 & B) & Rt). pose proof (cons_ok _ _ _ B) as K.
      destruct (shaped_name _ _ _ Rt) as [[_ C]|[_ C]].
      - assert (D : fdef_is_complex (ft_def (sf_type f)) = true).
        { rewrite <- A in C. unfold kind_agrees in K. destruct C as (t & Et & C).
          destruct (ft_def (sf_type f)); auto; exfalso.
          - destruct K as [vs K]. rewrite Et in K. cbn in K. inversion K as [K']. rewrite K' in C. auto.
          - apply K. exists t; auto.
          - apply K. exists t; auto. }
        destruct (G _ _ _ _ I f (j :: i :: p) D) as (cs & Ec & Co); auto.
        { intros D2. unfold kind_agrees in K. rewrite D2 in K. auto. }
        cbn [conv_ent]. rewrite Ec. eexists. split; [reflexivity|]. exists (IComplex cs). split; auto.
        constructor; auto; rewrite A; auto.
      - rewrite <- A in C. destruct (type_ir_leaf_shape (j :: i :: p) f tr K C) as (t & Et & T).
        cbn [conv_ent]. rewrite Et. eexists. split; [reflexivity|]. exists t. auto. }
    exists ys. split; [exact Ey|].
    assert (Hes : exists es, ys = List.map mk_irfield es /\
       List.map (fun e : string * sfield * irtype => (fst (fst e), ft_name (sf_type (snd (fst e))))) es =
         List.map (fun x : nat * ((string * string) * (sfield * ftrav)) => fst (snd x)) l /\
       (forall k f t, In (k, f, t) es -> exists tr, aget (k, ft_name (sf_type f)) u = Some (f, tr) /\
            ty_shape s f t)).
    { clear Ey El Pm. induction F as [|x y l ys (t & Ey & Ty) F IH].
      - exists []. cbn. split; [auto|]. split; [auto|]. intros k f t [].
      - destruct IH as (es & E1 & E2 & E3). { intros. eapply In_u. right. eauto. }
        destruct x as (j & ((k & typ) & (f & tr))). cbn [fst snd] in *.
        assert (I : aget (k, typ) u = Some (f, tr)) by (eapply In_u; left; reflexivity).
        destruct (S1 _ _ _ _ I) as (A & _ & _).
        exists ((k, f, t) :: es). cbn [List.map fst snd]. split; [congruence|]. split; [rewrite A; congruence|].
        intros k' f' t' [H|H]; [|auto]. inversion H; subst. exists tr. auto. }
    destruct Hes as (es & -> & Ecl & Hes).
    rewrite (sort_by_map (fun e : string * sfield * irtype => fst (fst e))) by (intros [[? ?] ?]; auto).
    pose proof (sort_by_perm (fun e : string * sfield * irtype => fst (fst e)) es) as Ps.
    constructor.
    - apply sort_by_sorted.
    - eapply Permutation_NoDup; [apply Permutation_map; exact Ps|]. rewrite Ecl.
      eapply Permutation_NoDup; [apply Permutation_map; exact Pm|].
      rewrite <- (map_map snd fst). rewrite indexed_snd. exact N.
    - intros k f t I. apply (Permutation_in _ (Permutation_sym Ps)) in I.
      destruct (Hes _ _ _ I) as (tr & E & _). destruct (S1 _ _ _ _ E) as (_ & B & _). auto.
    - intros k f t I. apply (Permutation_in _ (Permutation_sym Ps)) in I.
      destruct (Hes _ _ _ I) as (tr & E & T). auto.
  Qed.

  Lemma type_ir_shape : forall tr tn, shaped s tr tn -> ir_shaped tr tn.
  Proof.
    induction 1 as [tn C|tn lk objs C0 N K Nu Sd Nr IH].
    - intros f p D NI C'. contradiction.
    - intros f p D NI C. rewrite type_ir_cplx by auto.
      destruct (order_map o o_ok p (conv_obj o p) (indexed_from 0 objs)) as (l & Pm & El).
      match goal with |- context [collect_res ?x] =>
        replace x with (List.map (conv_obj o p) l) by (symmetry; exact El) end.
      assert (In_o : forall i T u, In (i, (T, u)) l -> aget T objs = Some u).
      { intros i T u I. apply In_aget; auto. rewrite <- (indexed_snd 0 objs).
        apply (Permutation_in _ (Permutation_sym Pm)) in I. apply (in_map snd) in I. auto. }
      destruct (collect_res_total (conv_obj o p) l
        (fun x y => exists fs, y = IRComplex (fst (snd x)) fs /\ fields_shape s fs))
        as (ys & Ey & F).
      { intros (i & (T & u)) I. apply In_o in I. cbn [fst snd].
        destruct (conv_u_shape u i p) as (fs & Ef & Ff).
        - split; [eapply Nu; eauto|]. intros k typ f' tr' G. destruct (Sd _ _ _ _ _ _ I G) as [A B]. eauto.
        - intros k typ f' tr' G. eapply IH; eauto.
        - cbn [conv_obj]. rewrite Ef. eexists. split; [reflexivity|]. eauto. }
      rewrite Ey. eexists. split; [reflexivity|].
      pose proof (sort_by_perm irc_name ys) as Ps.
      assert (En : List.map irc_name ys = List.map (fun x : nat * (string * ufields) => fst (snd x)) l).
      { symmetry. apply Forall2_map_eq. eapply Forall2_imp; [|exact F]. intros a b (fs & -> & _). auto. }
      assert (Pn : Permutation (akeys objs) (List.map irc_name (sort_by irc_name ys))).
      { etransitivity; [|apply Permutation_map; exact Ps]. rewrite En.
        etransitivity; [|apply Permutation_map; exact Pm].
        rewrite <- (map_map snd fst). rewrite indexed_snd. reflexivity. }
      constructor.
      + apply sort_by_sorted.
      + eapply Permutation_NoDup; eauto.
      + intros T. rewrite <- K. split; apply Permutation_in; auto using Permutation_sym.
      + intros T fs I. apply (Permutation_in _ (Permutation_sym Ps)) in I.
        destruct (Forall2_in_r _ _ _ _ F I) as (x & Ix & fs' & E & Ff). inversion E; subst. auto.
  Qed.
End IrShape.

(** Every document: what compiling it reports, and the shape of what it produces *)
Section Def.
  Variable cx : ctx.
  Hypothesis o_ok : order_ok (cx_order cx).
  Hypothesis cons_ok : consistent (cx_schema cx).
  Notation s := (cx_schema cx).
  Notation frags := (cx_frags cx).

  Lemma collection_shape fuel pth pth' sels P p par js par' ws errs :
    new_ctrav s P p = Ok par -> collect fuel cx pth sels par js = Some (par', ws, errs) ->
    composite s P /\ crun s frags (cx_deprecations cx) js P (possible s P) sels ws errs /\
    exists cs, collection_of (cx_order cx) pth' par' = Ok cs /\ coll_shape s P cs.
  Proof.
    intros E H. destruct (collect_fresh cx o_ok cons_ok _ _ _ _ _ _ _ _ _ _ E H) as (C & Sh & X).
    split; [auto|]. split; [auto|].
    destruct (type_ir_shape s (cx_order cx) o_ok cons_ok _ _ Sh root_field pth' eq_refl ltac:(discriminate) C) as (cs & Et & Cs).
    exists cs. split; auto. unfold collection_of. rewrite Et. auto.
  Qed.
End Def.
