(** [collect] realises the relation of [SelRun] on every document. *)
From Verif Require Export SelRun ShapeFacts.

Section Facts.
  Variable cx : ctx.
  Let s := cx_schema cx.
  Let frags := cx_frags cx.
  Let o := cx_order cx.
  Hypothesis o_ok : order_ok o.
  Hypothesis cons_ok : consistent s.
  Notation crun := (crun s frags (cx_deprecations cx)).
  Notation srun := (srun s frags (cx_deprecations cx)).
  Notation prun := (prun s frags (cx_deprecations cx)).

  Definition rec_ok (rec : collector) : Prop :=
    forall pth sels P K keys par js par' ws errs,
      shaped_ct s P keys par -> lists keys K -> rec pth sels par js = Some (par', ws, errs) ->
      shaped_ct s P keys par' /\ crun js P K sels ws errs.

  Lemma order_lists p (l : list string) K : lists l K -> lists (o p _ l) K.
  Proof.
    intros H T. rewrite <- (H T). pose proof (o_ok p _ l) as Pm.
    split; apply Permutation_in; [symmetry|]; auto.
  Qed.
  Lemma lookup_names P lk : lookup_of s P lk -> lists (akeys lk) (fun x => exists f, field_of s P x f).
  Proof.
    intros L x. split.
    - intros I. apply akeys_In_aget in I. destruct I as [f I]. exists f. apply (field_of_lookup s P lk x f L); auto.
    - intros [f I]. apply (field_of_lookup s P lk x f L) in I. eapply aget_Some_key; eauto.
  Qed.
  Lemma frag_names : lists (akeys frags) (fun x => exists fd, aget x frags = Some fd).
  Proof. intros x. split; [apply akeys_In_aget|]. intros [fd I]. eapply aget_Some_key; eauto. Qed.

  Lemma insert_field_run rec pth p al n a d sub P K keys par js par' ws errs :
    rec_ok rec -> shaped_ct s P keys par -> lists keys K ->
    insert_field rec cx pth p al n sub par js = Some (par', ws, errs) ->
    shaped_ct s P keys par' /\ srun js P K (SField p al n a d sub) ws errs.
  Proof.
    intros R Sh LK H. unfold insert_field in H. pose proof Sh as [A B N Kk Rr].
    destruct (aget n (ct_lookup par)) as [f|] eqn:E.
    2: { injection H as <- <- <-. rewrite A. split; [auto|]. constructor.
         - intros f F. apply (field_of_lookup s P _ n f B) in F. congruence.
         - apply order_lists. apply lookup_names; auto. }
    assert (F : field_of s P n f) by (apply (field_of_lookup s P _ n f B); auto).
    assert (Sf : schema_field s f) by (exists P, n; auto).
    pose proof (complex_composite cx cons_ok P n f F) as CC. fold s in CC.
    destruct sub as [|x sub]; destruct (fdef_is_complex (ft_def (sf_type f))) eqn:D.
    - injection H as <- <- <-. split; [auto|]. constructor; auto. apply CC; auto.
    - assert (Nc : ~ composite s (ft_name (sf_type f))) by (intros C; apply CC in C; discriminate).
      destruct (sh_insert_all s o o_ok P keys par (match al with Some a => a | None => n end) f (FTerm (ft_name (sf_type f))) (1 :: pth) Sh Sf) as (par1 & E1 & Sh1).
      { constructor; auto. }
      fold o in H. rewrite E1 in H. injection H as <- <- <-. split; [auto|].
      rewrite A. apply sr_leaf; auto.
    - assert (C : composite s (ft_name (sf_type f))) by (apply CC; auto).
      fold s in H. destruct (new_ctrav s (ft_name (sf_type f)) p) as [subp|e] eqn:En.
      2: { apply new_ctrav_err in En. destruct En; contradiction. }
      destruct (sh_new s o _ _ _ En) as (_ & Shs & Kp).
      destruct (rec (2 :: pth) (x :: sub) subp js) as [[[sub' ws'] es']|] eqn:Er; [|discriminate].
      destruct (R _ _ _ (possible s (ft_name (sf_type f))) _ _ _ _ _ _ Shs Kp Er) as [Shs' Cr].
      destruct es' as [|e es'].
      + destruct (sh_insert_all s o o_ok P keys par (match al with Some a => a | None => n end) f (ftrav_of_ctrav sub') (1 :: pth) Sh Sf) as (par1 & E1 & Sh1).
        { eapply shaped_ct_ft; eauto. }
        fold o in H. rewrite E1 in H. injection H as <- <- <-. split; [auto|].
        rewrite A. apply sr_sub; auto.
      + injection H as <- <- <-. split; [auto|]. eapply sr_sub_err; eauto.
    - injection H as <- <- <-. split; [auto|]. econstructor; eauto. intros C. apply CC in C. discriminate.
  Qed.

  Lemma bad_cond_of c p e : new_ctrav s c p = Err e -> ~ composite s c /\ bad_cond s c p e.
  Proof.
    intros H. apply new_ctrav_err in H. destruct H as [C [[-> H]|[[-> (t & H1 & H2)]|[-> (t & n & fs & H1 & H2)]]]];
      split; auto.
    - constructor; auto.
    - econstructor; eauto.
    - econstructor; eauto.
  Qed.

  Lemma spread_run rec pth c p sub P K keys par js r :
    rec_ok rec -> shaped_ct s P keys par -> lists keys K ->
    spread_into rec cx pth c p sub par js = Some r ->
    exists par' ws errs, r = inl (par', ws, errs) /\ shaped_ct s P keys par' /\ prun js K c p sub ws errs.
  Proof.
    intros R Sh LK H. unfold spread_into in H.
    destruct (clone_for_type_spread cx (0 :: pth) par c p js) as [[subp w0]|e] eqn:Ec.
    2: { apply clone_err in Ec. apply bad_cond_of in Ec. destruct Ec. inversion H; subst.
         eexists _, _, _. split; [reflexivity|]. split; auto. constructor; auto. }
    destruct (sh_clone _ _ _ _ _ _ _ _ _ _ Ec Sh) as (C & Shs & Kc & Ew). fold s in C, Shs, Kc.
    assert (LK' : lists (akeys (ct_objs subp)) (narrow s c K)).
    { intros T. rewrite Kc. unfold narrow. rewrite (LK T). tauto. }
    assert (Nw : narrow_warn s js c p K w0).
    { subst w0. destruct (is_fully_jumped js) eqn:Ej; cbn [negb andb].
      - apply nw_jumped. destruct js; auto; discriminate.
      - destruct (akeys (ct_objs subp)) as [|T0 ks] eqn:Ek.
        + apply nw_over.
          * destruct js; discriminate.
          * intros T X. apply (LK' T) in X. auto.
          * apply order_lists. intros T. rewrite (sc_keys _ _ _ _ Sh). apply LK.
        + apply nw_fine. intros X. apply (X T0). apply LK'. left; auto. }
    destruct (rec (1 :: pth) sub subp js) as [[[sub' ws'] es']|] eqn:Er; [|discriminate].
    destruct (R _ _ _ _ _ _ _ _ _ _ Shs LK' Er) as [Shs' Cr].
    destruct es' as [|e es'].
    - destruct (sh_extend_ct s o o_ok P keys par c _ sub' (2 :: pth) Sh Shs') as (par1 & E1 & Sh1).
      fold o in H. rewrite E1 in H. inversion H; subst r. eexists _, _, _. split; [reflexivity|].
      split; auto. pose proof (pr_ok s frags (cx_deprecations cx) js K c p sub w0 ws' [] C Nw Cr) as X.
      destruct (is_local js); exact X.
    - inversion H; subst r. eexists _, _, _. split; [reflexivity|]. split; auto.
      apply (pr_ok s frags (cx_deprecations cx) js K c p sub w0 ws' (e :: es') C Nw Cr).
  Qed.

  Lemma sel_step_run rec pth i x P K keys par js r :
    rec_ok rec -> shaped_ct s P keys par -> lists keys K ->
    sel_step rec cx pth i x par js = Some r ->
    exists par' ws errs, r = inl (par', ws, errs) /\ shaped_ct s P keys par' /\ srun js P K x ws errs.
  Proof.
    intros R Sh LK H. destruct x as [p al n a d sub|p n d|p c d sub]; cbn [sel_step] in H.
    - destruct (insert_field rec cx (i :: pth) p al n sub par js) as [[[par' ws] es]|] eqn:E; [|discriminate].
      inversion H; subst r. destruct (insert_field_run _ _ _ _ _ a d _ _ K _ _ _ _ _ _ R Sh LK E).
      eexists _, _, _. split; [reflexivity|]. auto.
    - fold frags in H. destruct (aget n frags) as [fd|] eqn:E.
      + destruct (spread_run _ _ _ _ _ _ K _ _ _ _ R Sh LK H) as (par' & ws & es & -> & Sh' & X).
        eexists _, _, _. split; [reflexivity|]. split; auto. econstructor; eauto.
      + inversion H; subst r. eexists _, _, _. split; [reflexivity|]. split; auto. constructor; auto.
        apply order_lists. apply frag_names.
    - destruct c as [c|].
      + destruct (spread_run _ _ _ _ _ _ K _ _ _ _ R Sh LK H) as (par' & ws & es & -> & Sh' & X).
        eexists _, _, _. split; [reflexivity|]. split; auto. econstructor; eauto.
      + inversion H; subst r. eexists _, _, _. split; [reflexivity|]. split; auto. constructor.
  Qed.

  Lemma loop_run rec sels : rec_ok rec -> forall pth i P K keys par js ws0 es0 par' ws errs,
    shaped_ct s P keys par -> lists keys K ->
    collect_loop rec cx pth i sels par js ws0 es0 = Some (par', ws, errs) ->
    shaped_ct s P keys par' /\
    exists ws1 es1, ws = (ws0 ++ ws1)%list /\ errs = (es0 ++ es1)%list /\ crun js P K sels ws1 es1.
  Proof.
    intros R. induction sels as [|x sels IH]; intros pth i P K keys par js ws0 es0 par' ws errs Sh LK H.
    - cbn [collect_loop] in H. inversion H; subst. split; auto. exists [], []. rewrite !app_nil_r.
      repeat split; auto. constructor.
    - rewrite collect_loop_cons in H.
      destruct (sel_step rec cx pth i x par js) as [r|] eqn:E; [|discriminate].
      destruct (sel_step_run _ _ _ _ _ K _ _ _ _ R Sh LK E) as (par1 & ws1 & es1 & -> & Sh1 & X).
      destruct (IH _ _ _ K _ _ _ _ _ _ _ _ Sh1 LK H) as (Sh2 & ws2 & es2 & -> & -> & Y).
      split; auto. exists (ws1 ++ ws2)%list, (es1 ++ es2)%list. rewrite !app_assoc.
      repeat split; auto. constructor; auto.
  Qed.

  Theorem collect_run fuel : rec_ok (collect fuel cx).
  Proof.
    induction fuel as [|fuel IH]; intros pth sels P K keys par js par' ws errs Sh LK H; [discriminate|].
    rewrite collect_S in H. destruct (loop_run _ sels IH _ _ _ K _ _ _ _ _ _ _ _ Sh LK H) as (Sh' & w & e & -> & -> & X).
    split; auto.
  Qed.

  (** Collecting from a fresh parent *)
  Lemma collect_fresh fuel pth sels P p par js par' ws errs :
    new_ctrav s P p = Ok par -> collect fuel cx pth sels par js = Some (par', ws, errs) ->
    composite s P /\ shaped (s) (ftrav_of_ctrav par') P /\ crun js P (possible s P) sels ws errs.
  Proof.
    intros E H. destruct (sh_new s o _ _ _ E) as (C & Sh & K).
    destruct (collect_run fuel pth sels P (possible s P) _ _ _ _ _ _ Sh K H) as [Sh' X].
    split; [auto|]. split; [|auto]. eapply shaped_ct_ft; eauto.
  Qed.
End Facts.
