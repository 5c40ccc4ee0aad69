(** Every property of the intermediate representation is named by a response key of the document or
    of a fragment it spreads, whatever the document. *)
From Verif Require Export SpecKeys ShapeIr SpecName.

Section Keys.
  Variable o : order.
  Hypothesis o_ok : order_ok o.
  Variable K : string -> Prop.

  Inductive keyed : ftrav -> Prop :=
  | kd_term tn : keyed (FTerm tn)
  | kd_cplx tn lk objs :
      (forall T u k typ f tr, In (T, u) objs -> In ((k, typ), (f, tr)) u -> K k) ->
      (forall T u k typ f tr, In (T, u) objs -> In ((k, typ), (f, tr)) u -> keyed tr) ->
      keyed (FCplx tn lk objs).
  Definition keyed_u (u : ufields) : Prop := forall k typ f tr, In ((k, typ), (f, tr)) u -> K k /\ keyed tr.
  Definition keyed_objs (objs : amap string ufields) : Prop := forall T u, In (T, u) objs -> keyed_u u.
  Lemma keyed_cplx tn lk objs : keyed (FCplx tn lk objs) <-> keyed_objs objs.
  Proof.
    split.
    - intros H. inversion H as [|? ? ? A B]; subst. intros T u I k typ f tr J. split; [eapply A|eapply B]; eauto.
    - intros H. constructor; intros T u k typ f tr I J; apply (H T u I k typ f tr J).
  Qed.

  Lemma fold_err_inv {X St E} (P : St -> Prop) (g : X -> St -> St * option E) l :
    (forall x st st' e, In x l -> P st -> g x st = (st', e) -> P st') ->
    forall st st' e, P st -> fold_err g l st = (st', e) -> P st'.
  Proof.
    induction l as [|x l IH]; intros H st st' e Ps; cbn [fold_err].
    - intros E0. inversion E0; subst. auto.
    - destruct (g x st) as [st1 e1] eqn:E1. pose proof (H _ _ _ _ (or_introl eq_refl) Ps E1) as P1.
      destruct e1 as [e1|].
      + intros E0. inversion E0; subst. auto.
      + intros E0. apply (IH (fun y a b c I => H y a b c (or_intror I)) _ _ _ P1 E0).
  Qed.
  Lemma in_aset {A B} `{EqBOk A} (k k' : A) (v v' : B) m : In (k', v') (aset k v m) -> (k' = k /\ v' = v) \/ In (k', v') m.
  Proof.
    induction m as [|[a b] m IH]; cbn.
    - intros [E|[]]. inversion E; auto.
    - destruct (eqb k a) eqn:E0; cbn.
      + intros [E|I]; [|auto]. apply eqb_ok in E0. inversion E; subst. auto.
      + intros [E|I]; [auto|]. destruct (IH I); auto.
  Qed.

  Definition ext_keyed (tr : ftrav) : Prop :=
    forall p self self' e, keyed self -> extend_ft o tr p self = (self', e) -> keyed self'.

  Lemma uf_insert_keyed tr p k typ f u u' e :
    K k -> keyed tr -> ext_keyed tr -> keyed_u u ->
    uf_insert_with (extend_ft o tr p) (k, typ) f tr u = (u', e) -> keyed_u u'.
  Proof.
    intros Kk Kt X Ku H. unfold uf_insert_with in H. destruct (aget (k, typ) u) as [[f0 t0]|] eqn:E.
    - destruct (extend_ft o tr p t0) as [t' e'] eqn:Ex. inversion H; subst. intros k1 typ1 f1 tr1 I.
      apply in_aset in I. destruct I as [[E1 E2]|I]; [|apply (Ku _ _ _ _ I)]. inversion E1; subst. inversion E2; subst.
      apply aget_In in E. destruct (Ku _ _ _ _ E) as [_ K0]. split; auto. eapply X; eauto.
    - inversion H; subst. intros k1 typ1 f1 tr1 I.
      apply in_aset in I. destruct I as [[E1 E2]|I]; [|apply (Ku _ _ _ _ I)]. inversion E1; subst. inversion E2; subst. auto.
  Qed.
  Lemma co_update_keyed T g objs objs' e :
    (forall u u' e, keyed_u u -> g u = (u', e) -> keyed_u u') ->
    keyed_objs objs -> co_update (T, g) objs = (objs', e) -> keyed_objs objs'.
  Proof.
    intros G Ko H. unfold co_update in H. cbn [fst snd] in H. destruct (aget T objs) as [u|] eqn:E.
    - destruct (g u) as [u' e'] eqn:Eg. inversion H; subst. intros T1 u1 I. apply in_aset in I.
      destruct I as [[-> ->]|I]; [|apply (Ko _ _ I)]. apply aget_In in E. eapply G; eauto.
    - inversion H; subst. auto.
  Qed.

  Lemma extend_keyed : forall tr, keyed tr -> ext_keyed tr.
  Proof.
    induction 1 as [tn|tn lk objs A B IH]; intros p self self' e Ks H.
    - cbn in H. destruct self; inversion H; subst; auto.
    - destruct self as [stn|stn slk sobjs]; [cbn in H; inversion H; subst; auto|].
      rewrite extend_ft_cplx in H.
      destruct (fold_err co_update (o p _ (List.map (obj_step o p) (indexed_from 0 objs))) sobjs) as [objs' e'] eqn:E.
      inversion H; subst. apply keyed_cplx. apply keyed_cplx in Ks.
      eapply (fold_err_inv keyed_objs); [|exact Ks|exact E].
      intros [T g] st st' e1 I Kst Eu. eapply co_update_keyed; [|exact Kst|exact Eu].
      apply (Permutation_in _ (Permutation_sym (o_ok _ _ _))) in I. apply in_map_iff in I. destruct I as ([i [T0 u0]] & Eo & I).
      apply (in_map snd) in I. rewrite indexed_snd in I. cbn [snd] in I.
      unfold obj_step in Eo. cbn [fst snd] in Eo. inversion Eo; subst T0 g. clear Eo Eu.
      intros u u' e2 Ku Ef. eapply (fold_err_inv keyed_u); [|exact Ku|exact Ef].
      intros g st2 st3 e3 J Kst2 Eg. apply (Permutation_in _ (Permutation_sym (o_ok _ _ _))) in J.
      apply in_map_iff in J. destruct J as ([j [[k typ] [f tr]]] & <- & J).
      apply (in_map snd) in J. rewrite indexed_snd in J. cbn [snd] in J.
      unfold ent_step in Eg. cbn [fst snd] in Eg. eapply uf_insert_keyed; [| | |exact Kst2|exact Eg]; eauto.
  Qed.

  Lemma insert_all_keyed q k typ f tr par par' e :
    K k -> keyed tr -> keyed_objs (ct_objs par) -> insert_all o q k typ f tr par = (par', e) -> keyed_objs (ct_objs par').
  Proof.
    intros Kk Kt Kp H. unfold insert_all in H.
    match type of H with (let (_, _) := ?x in _) = _ => destruct x as [objs' e'] eqn:E end.
    inversion H; subst. cbn [ct_objs]. eapply (fold_err_inv keyed_objs); [|exact Kp|exact E].
    intros [i T] st st' e1 I Kst Eu. eapply co_update_keyed; [|exact Kst|exact Eu].
    intros u u' e2 Ku Ef. eapply uf_insert_keyed; [| | |exact Ku|exact Ef]; auto. apply extend_keyed. auto.
  Qed.
  Lemma extend_ct_keyed q par sub par' e :
    keyed_objs (ct_objs par) -> keyed_objs (ct_objs sub) -> extend_ct o q par sub = (par', e) -> keyed_objs (ct_objs par').
  Proof.
    intros Kp Kq H. unfold extend_ct in H.
    destruct (extend_ft o (ftrav_of_ctrav sub) q (ftrav_of_ctrav par)) as [t e'] eqn:E.
    assert (X : keyed t).
    { eapply extend_keyed; [|  |exact E]; unfold ftrav_of_ctrav; apply keyed_cplx; auto. }
    destruct t as [n|n l ob]; inversion H; subst; auto. apply keyed_cplx in X. auto.
  Qed.
  Lemma new_keyed s c p par : new_ctrav s c p = Ok par -> keyed_objs (ct_objs par).
  Proof.
    intros E. set (cx := {| cx_schema := s; cx_deprecations := false; cx_frags := []; cx_order := o |}).
    assert (C : composite s c) by (eapply (new_ctrav_inv cx); eauto).
    destruct (new_ctrav_ok cx c p C) as (par' & E' & A & B & N & Kp & Z). cbn in *.
    rewrite E in E'. inversion E'; subst par'. intros T u I. apply In_aget in I; auto. rewrite (Z T u I).
    intros ? ? ? ? [].
  Qed.

  Lemma type_ir_keyed : forall tr, keyed tr -> forall p f t, type_ir o p f tr = Ok t -> ty_keys K t.
  Proof.
    induction 1 as [tn|tn lk objs A B IH]; intros p f t H.
    - cbn in H. destruct (ft_def (sf_type f)); inversion H; subst; constructor.
    - destruct (fdef_is_complex (ft_def (sf_type f))) eqn:Dc.
      + destruct (ft_def (sf_type f)) eqn:Ed; try discriminate Dc; rewrite <- Ed in Dc.
        all: try (rewrite (type_ir_cplx o p f tn lk objs Dc ltac:(rewrite Ed; discriminate)) in H).
        all: try (cbn in H; rewrite Ed in H; discriminate H).
        all: match type of H with match ?x with _ => _ end = _ => destruct x as [cs|] eqn:E; [|discriminate] end;
          inversion H; subst t; constructor; intros x I;
          apply (Permutation_in _ (Permutation_sym (sort_by_perm irc_name cs))) in I;
          apply collect_res_Ok in E;
          apply (in_map (@Ok ir_error ircomplex)) in I; rewrite <- E in I;
          apply (Permutation_in _ (Permutation_sym (o_ok _ _ _))) in I;
          apply in_map_iff in I; destruct I as ([i [T u]] & Ex & I);
          apply (in_map snd) in I; rewrite indexed_snd in I; cbn [snd] in I;
          unfold conv_obj in Ex;
          match type of Ex with match ?x with _ => _ end = _ => destruct x as [fs|] eqn:Ef; [|discriminate] end;
          inversion Ex; subst x;
          apply collect_res_Ok in Ef;
          assert (Y : forall k d dp l r t, In (IRField k d dp l r t) (sort_by irf_prop fs) ->
            exists j typ f tr, In ((k, typ), (f, tr)) u /\ type_ir o (j :: i :: p) f tr = Ok t);
          [ intros k d dp l r t J;
            apply (Permutation_in _ (Permutation_sym (sort_by_perm irf_prop fs))) in J;
            apply (in_map (@Ok ir_error irfield)) in J; rewrite <- Ef in J;
            apply (Permutation_in _ (Permutation_sym (o_ok _ _ _))) in J;
            apply in_map_iff in J; destruct J as ([j [[k0 typ] [f0 tr]]] & Ey & J);
            apply (in_map snd) in J; rewrite indexed_snd in J; cbn [snd] in J;
            unfold conv_ent in Ey; destruct (type_ir o (j :: i :: p) f0 tr) as [ty|] eqn:Et; [|discriminate];
            inversion Ey; subst; eauto 8
          | constructor; intros k d dp l r t J; destruct (Y _ _ _ _ _ _ J) as (j & typ & f0 & tr & Iu & Et); eauto ].
      + cbn in H. destruct (ft_def (sf_type f)); try discriminate Dc; inversion H; subst; constructor.
  Qed.
End Keys.

Section Collect.
  Variable cx : ctx.
  Hypothesis o_ok : order_ok (cx_order cx).
  Variable K : string -> Prop.

  Definition keys_in (sels : list selection) : Prop := forall k, selects (cx_frags cx) sels k -> K k.
  Definition rec_keyed (rec : collector) : Prop := forall pth sels par js par' ws errs,
    keys_in sels -> keyed_objs K (ct_objs par) -> rec pth sels par js = Some (par', ws, errs) -> keyed_objs K (ct_objs par').

  Lemma insert_field_keyed rec pth p al n sub par js par' ws errs :
    rec_keyed rec -> K (response_key al n) -> keys_in sub -> keyed_objs K (ct_objs par) ->
    insert_field rec cx pth p al n sub par js = Some (par', ws, errs) -> keyed_objs K (ct_objs par').
  Proof.
    intros R Kk Ks Kp H. unfold insert_field in H. fold (response_key al n) in H.
    destruct (aget n (ct_lookup par)) as [f|]; [|inversion H; subst; auto].
    destruct sub as [|s0 sub], (fdef_is_complex (ft_def (sf_type f))).
    - inversion H; subst; auto.
    - destruct (insert_all _ _ _ _ _ _ _) as [t' [e|]] eqn:E; inversion H; subst;
        (eapply insert_all_keyed; [exact o_ok|exact Kk| |exact Kp|exact E]; constructor).
    - destruct (new_ctrav (cx_schema cx) (ft_name (sf_type f)) p) as [sp|e] eqn:En; [|inversion H; subst; auto].
      destruct (rec (2 :: pth) (s0 :: sub) sp js) as [[[sp' ws'] [|e1 es]]|] eqn:Er; [| |discriminate].
      + assert (Kq : keyed_objs K (ct_objs sp')) by (eapply R; [exact Ks|eapply (new_keyed (cx_order cx)); eauto|exact Er]).
        destruct (insert_all _ _ _ _ _ _ _) as [t' [e|]] eqn:E; inversion H; subst;
        (eapply insert_all_keyed; [exact o_ok|exact Kk| |exact Kp|exact E]; apply keyed_cplx; auto).
      + inversion H; subst; auto.
    - inversion H; subst; auto.
  Qed.
  Lemma spread_keyed rec pth tn p sub par js r :
    rec_keyed rec -> keys_in sub -> keyed_objs K (ct_objs par) ->
    spread_into rec cx pth tn p sub par js = Some r ->
    keyed_objs K (ct_objs (fst (fst (match r with inl x => x | inr x => x end)))).
  Proof.
    intros R Ks Kp H. unfold spread_into in H.
    destruct (clone_for_type_spread cx (0 :: pth) par tn p js) as [[sp ws]|e] eqn:Ec; [|inversion H; subst; auto].
    destruct (rec (1 :: pth) sub sp js) as [[[sp' ws'] es]|] eqn:Er; [|discriminate].
    assert (Kq : keyed_objs K (ct_objs sp')).
    { eapply R; [exact Ks| |exact Er]. unfold clone_for_type_spread in Ec.
      destruct (new_ctrav (cx_schema cx) tn p) as [b|] eqn:En; [|discriminate]. inversion Ec; subst. cbn [ct_objs].
      intros T u I. apply filter_In in I. eapply (new_keyed (cx_order cx)); [exact En|apply I]. }
    destruct es as [|e es]; [|inversion H; subst; auto].
    destruct (extend_ct (cx_order cx) (2 :: pth) par sp') as [par' [e|]] eqn:E; inversion H; subst;
      (eapply extend_ct_keyed; [exact o_ok|exact Kp|exact Kq|exact E]).
  Qed.
  Lemma loop_keyed rec pth js : rec_keyed rec -> forall sels i par ws errs par' ws' errs',
    keys_in sels -> keyed_objs K (ct_objs par) ->
    collect_loop rec cx pth i sels par js ws errs = Some (par', ws', errs') -> keyed_objs K (ct_objs par').
  Proof.
    intros R. induction sels as [|sel sels IH]; intros i par ws errs par' ws' errs' Ks Kp H; cbn [collect_loop] in H.
    - inversion H; subst; auto.
    - assert (Kr : keys_in sels).
      { intros k M. apply Ks. inversion M; subst;
          [eapply mn_here|eapply mn_below|eapply mn_inline|eapply mn_spread]; try (right; eassumption); eauto. }
      assert (Go : forall r, match r with
        | None => None
        | Some (inl (parent', ws', errs')) =>
            collect_loop rec cx pth (S i) sels parent' js (ws ++ ws') (errs ++ errs')
        | Some (inr (parent', ws', errs')) => Some (parent', ws ++ ws', errs')
        end = Some (par', ws', errs') ->
        (forall x, r = Some x -> keyed_objs K (ct_objs (fst (fst (match x with inl x => x | inr x => x end))))) ->
        keyed_objs K (ct_objs par')).
      { intros [[[[p1 w1] e1]|[[p1 w1] e1]]|] E Hr; [| |discriminate].
        - eapply IH; [exact Kr|apply (Hr _ eq_refl)|exact E].
        - inversion E; subst. apply (Hr _ eq_refl). }
      destruct sel as [p al n a d sub|p n d|p c d sub].
      + apply (Go _ H). intros x Ex.
        destruct (insert_field rec cx (i :: pth) p al n sub par js) as [[[p1 w1] e1]|] eqn:E; [|discriminate].
        inversion Ex; subst. cbn [fst]. eapply insert_field_keyed; [exact R| | |exact Kp|exact E].
        * apply Ks. eapply mn_here. left; reflexivity.
        * intros k M. apply Ks. eapply mn_below; [left; reflexivity|exact M].
      + destruct (aget n (cx_frags cx)) as [f|] eqn:Ef.
        * apply (Go _ H). intros x Ex. eapply spread_keyed; [exact R| |exact Kp|exact Ex].
          intros k M. apply Ks. eapply mn_spread; [left; reflexivity|exact Ef|exact M].
        * eapply IH; [exact Kr|exact Kp|exact H].
      + destruct c as [tn|].
        * apply (Go _ H). intros x Ex. eapply spread_keyed; [exact R| |exact Kp|exact Ex].
          intros k M. apply Ks. eapply mn_inline; [left; reflexivity|exact M].
        * eapply IH; [exact Kr|exact Kp|exact H].
  Qed.
  Lemma collect_keyed fuel : rec_keyed (collect fuel cx).
  Proof.
    induction fuel as [|f IH]; intros pth sels par js par' ws errs Ks Kp H; cbn [collect] in H; [discriminate|].
    eapply loop_keyed; eauto.
  Qed.
  Lemma collection_keyed pth par cs : keyed_objs K (ct_objs par) -> collection_of (cx_order cx) pth par = Ok cs ->
    forall x, In x cs -> cplx_keys K x.
  Proof.
    intros Kp H. unfold collection_of in H.
    destruct (type_ir (cx_order cx) pth root_field (ftrav_of_ctrav par)) as [t|] eqn:E; [|discriminate].
    assert (X : ty_keys K t) by (eapply type_ir_keyed; [exact o_ok| |exact E]; apply keyed_cplx; auto).
    destruct t; inversion H; subst; [intros x []| |intros x []|intros x []]. inversion X; auto.
  Qed.
End Collect.

Lemma definition_keys fuel cx d ws op : order_ok (cx_order cx) -> compile_definition fuel cx d = Some (ws, Ok op) ->
  forall x, In x (op_collection op) -> cplx_keys (selects (cx_frags cx) (doc_sels d)) x.
Proof.
  intros O H. assert (Go : forall P p par sels par' ws' cs, new_ctrav (cx_schema cx) P p = Ok par ->
    collect fuel cx [0] sels par RootLocal = Some (par', ws', []) -> collection_of (cx_order cx) [1] par' = Ok cs ->
    forall x, In x cs -> cplx_keys (selects (cx_frags cx) sels) x).
  { intros P p par sels par' ws' cs En Ec Eo. eapply collection_keyed; [exact O| |exact Eo].
    eapply (collect_keyed cx O); [|eapply (new_keyed (cx_order cx)); eauto|exact Ec]. intros k M. exact M. }
  destruct d as [[p sels|k p name vars dirs sels]|f]; cbn [compile_definition build_from_operation doc_sels] in *.
  - discriminate.
  - destruct (new_ctrav (cx_schema cx) (op_type_name k) p) as [par|] eqn:En; [|discriminate].
    destruct (collect fuel cx [0] sels par RootLocal) as [[[par' ws'] [|e es]]|] eqn:Ec; try discriminate.
    destruct (collection_of (cx_order cx) [1] par') as [cs|] eqn:Eo; [|discriminate].
    destruct (try_build_variable_ir (cx_schema cx) vars); [|discriminate]. inversion H; subst. cbn [op_collection]. eauto.
  - destruct (new_ctrav (cx_schema cx) (fr_cond f) (fr_pos f)) as [par|] eqn:En; [|discriminate].
    destruct (collect fuel cx [0] (fr_sels f) par RootLocal) as [[[par' ws'] [|e es]]|] eqn:Ec; try discriminate.
    destruct (collection_of (cx_order cx) [1] par') as [cs|] eqn:Eo; [|discriminate].
    inversion H; subst. cbn [op_collection]. eauto.
Qed.
