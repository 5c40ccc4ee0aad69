(** The main collection theorem: on valid selections, [collect] succeeds and represents the
    occurrences of the specification. *)
From Verif Require Export CollectFacts.

(** One iteration of the loop of [collect_loop] *)
Definition sel_step (rec : collector) (cx : ctx) (pth : list nat) (i : nat) (sel : selection)
           (parent : ctrav) (js : jump) : option (cresult + cresult) :=
  match sel with
  | SField p alias name _ _ sub =>
      option_map inl (insert_field rec cx (i :: pth) p alias name sub parent js)
  | SInline p cond _ sub =>
      match cond with
      | Some tn => spread_into rec cx (i :: pth) tn p sub parent (jump_inline js)
      | None => Some (inl (parent, [], [EMissingTypeConditionOnInlineFragment p]))
      end
  | SSpread p name _ =>
      match aget name (cx_frags cx) with
      | Some f => spread_into rec cx (i :: pth) (fr_cond f) p (fr_sels f) parent (jump_foreign js)
      | None => Some (inl (parent, [],
                  [EUnknownFragment name p (cx_order cx (i :: pth) _ (akeys (cx_frags cx)))]))
      end
  end.

Lemma collect_loop_cons rec cx pth i sel rest parent js ws errs :
  collect_loop rec cx pth i (sel :: rest) parent js ws errs =
  match sel_step rec cx pth i sel parent js with
  | None => None
  | Some (inl (parent', ws', errs')) =>
      collect_loop rec cx pth (S i) rest parent' js (ws ++ ws') (errs ++ errs')
  | Some (inr (parent', ws', errs')) => Some (parent', ws ++ ws', errs')
  end.
Proof.
  cbn [collect_loop]. unfold sel_step. destruct sel as [p al n a d sub|p n d|p c d sub].
  - reflexivity.
  - destruct (aget n (cx_frags cx)); reflexivity.
  - destruct c; reflexivity.
Qed.
Lemma collect_S f cx pth sels parent js :
  collect (S f) cx pth sels parent js = collect_loop (collect f cx) cx pth 0 sels parent js [] [].
Proof. reflexivity. Qed.

Section Main.
  Variable cx : ctx.
  Let s := cx_schema cx.
  Let frags := cx_frags cx.
  Let o := cx_order cx.
  Hypothesis o_ok : order_ok o.
  Hypothesis cons_ok : consistent s.

  Notation rep := (rep s frags).
  Notation rep_u := (rep_u s frags).
  Notation focc := (focc s frags).

  Lemma complex_composite c n f : field_of s c n f ->
    (fdef_is_complex (ft_def (sf_type f)) = true <-> composite s (ft_name (sf_type f))).
  Proof.
    intros F. pose proof (cons_ok _ _ _ F) as K. unfold kind_agrees in K.
    destruct (ft_def (sf_type f)); cbn; split; intros H; auto; try discriminate; try contradiction.
    - destruct K as [fs K]. unfold composite. destruct (get_type s _) as [t|]; [|discriminate].
      cbn in K. inversion K as [K']. exists t. rewrite K'. auto.
    - destruct K as (a & fs & ps & K). unfold composite. destruct (get_type s _) as [t|]; [|discriminate].
      cbn in K. inversion K as [K']. exists t. rewrite K'. auto.
    - destruct K as (a & fs & ps & K). unfold composite. destruct (get_type s _) as [t|]; [|discriminate].
      cbn in K. inversion K as [K']. exists t. rewrite K'. auto.
    - destruct K as (vs & K). destruct H as (t & E & H). rewrite E in K. cbn in K. inversion K as [K'].
      rewrite K' in H. contradiction.
  Qed.

  (** *** Initial objects *)
  Lemma fold_aset_empty ps : forall m : amap string ufields,
    NoDup (akeys m) -> (forall T u, aget T m = Some u -> u = []) ->
    NoDup (akeys (fold_left (fun m t => aset t [] m) ps m)) /\
    (forall T, In T (akeys (fold_left (fun m t => aset t [] m) ps m)) <-> In T (akeys m) \/ In T ps) /\
    (forall T u, aget T (fold_left (fun m t => aset t [] m) ps m) = Some u -> u = []).
  Proof.
    induction ps as [|t ps IH]; intros m N E; cbn [fold_left].
    - split; [auto|]. split; [|auto]. intros T. cbn [In]. tauto.
    - destruct (IH (aset t [] m)) as (A & B & C).
      + apply NoDup_aset; auto.
      + intros T u. rewrite aget_aset. destruct (eqb T t); [congruence|]. apply E.
      + split; [auto|]. split; [|auto]. intros T. rewrite B, In_akeys_aset. cbn. intuition.
  Qed.

  Lemma initial_objs_ok c t :
    get_type s c = Some t -> composite s c ->
    exists objs, initial_objs c (st_def t) = Some objs /\ NoDup (akeys objs) /\
      (forall T, In T (akeys objs) <-> possible s c T) /\ (forall T u, aget T objs = Some u -> u = []).
  Proof.
    intros E (t' & E' & H). rewrite E in E'. inversion E'; subst t'. unfold initial_objs, possible.
    destruct (st_def t) as [fs| | |n fs ps| |n ps fs] eqn:D; try contradiction.
    - eexists. split; [reflexivity|]. cbn. split; [repeat constructor; auto|]. split.
      + intros T. split.
        * intros [<-|[]]. exists t. rewrite D. auto.
        * intros (t' & E2 & H2). rewrite E in E2. inversion E2; subst t'. rewrite D in H2. auto.
      + intros T u. destruct (eqb T c); congruence.
    - eexists. split; [reflexivity|].
      destruct (fold_aset_empty ps []) as (A & B & C); [constructor|discriminate|].
      split; [auto|]. split; [|auto]. intros T. rewrite B. cbn. split.
      + intros [[]|I]. exists t. rewrite D. auto.
      + intros (t' & E2 & H2). rewrite E in E2. inversion E2; subst t'. rewrite D in H2. auto.
    - eexists. split; [reflexivity|].
      destruct (fold_aset_empty ps []) as (A & B & C); [constructor|discriminate|].
      split; [auto|]. split; [|auto]. intros T. rewrite B. cbn. split.
      + intros [[]|I]. exists t. rewrite D. auto.
      + intros (t' & E2 & H2). rewrite E in E2. inversion E2; subst t'. rewrite D in H2. auto.
  Qed.

  Lemma new_ctrav_ok c p : composite s c ->
    exists par, new_ctrav s c p = Ok par /\ ct_name par = c /\ lookup_of s c (ct_lookup par) /\
      NoDup (akeys (ct_objs par)) /\ (forall T, In T (akeys (ct_objs par)) <-> possible s c T) /\
      (forall T u, aget T (ct_objs par) = Some u -> u = []).
  Proof.
    intros C. destruct (composite_lookup s c C) as [lk L]. pose proof C as (t & E & H).
    destruct (initial_objs_ok c t E C) as (objs & I & N & K & Z).
    exists {| ct_name := c; ct_lookup := lk; ct_objs := objs |}. unfold new_ctrav. rewrite E, I.
    destruct L as (t' & E' & L). rewrite E in E'. inversion E'; subst t'.
    assert (G : get_fields_lookup (st_def t) = Some lk).
    { destruct (st_def t); try contradiction; cbn; congruence. }
    rewrite G. split; [auto|]. cbn. repeat split; auto; try apply K; auto. exists t. auto.
  Qed.

  Lemma new_ctrav_inv c p par : new_ctrav s c p = Ok par -> composite s c.
  Proof.
    unfold new_ctrav. destruct (get_type s c) as [t|] eqn:E; [|discriminate].
    destruct (get_fields_lookup (st_def t)); [|discriminate].
    destruct (initial_objs c (st_def t)) eqn:I; [|discriminate]. intros _. exists t. split; auto.
    destruct (st_def t); cbn in I; try discriminate; auto.
  Qed.

  Lemma rep_u_nil : rep_u (fun _ _ _ => False) [].
  Proof.
    split; [constructor|]. split.
    - intros k typ f tr H. discriminate.
    - intros k f ss [].
  Qed.

  (** *** State of a parent during collection *)
  Record pstate (P : string) (O : string -> occset) (keys : list string) (par : ctrav) : Prop := {
    ps_name : ct_name par = P;
    ps_lookup : lookup_of s P (ct_lookup par);
    ps_nodup : NoDup (akeys (ct_objs par));
    ps_keys : forall T, In T (akeys (ct_objs par)) <-> In T keys;
    ps_rep : forall T u, aget T (ct_objs par) = Some u -> rep_u (O T) u }.

  Lemma pstate_ext P O O' keys par :
    (forall T k f ss, In T keys -> (O T k f ss <-> O' T k f ss)) -> pstate P O keys par -> pstate P O' keys par.
  Proof.
    intros H [A B C D E]. constructor; auto. intros T u G. eapply rep_u_ext; [|apply (E T u G)].
    intros. apply H. apply D. eapply aget_Some_key; eauto.
  Qed.

  Lemma pstate_rep P par M : composite s P ->
    pstate P (fun T => focc T P M) (akeys (ct_objs par)) par ->
    (forall T, In T (akeys (ct_objs par)) <-> possible s P T) ->
    rep (ftrav_of_ctrav par) P M.
  Proof.
    intros C [A B N D E] K. unfold ftrav_of_ctrav. rewrite A. apply rep_cplx_intro; auto.
  Qed.

  (** *** Inserting one field occurrence everywhere *)
  Definition osingle (k : string) (f : sfield) (ss : list selection) : occset :=
    fun k' f' ss' => k' = k /\ f' = f /\ ss' = ss.

  Lemma uf_insert_ok O u k f tr ss q :
    rep_u O u -> rep tr (ft_name (sf_type f)) (fun x => In x ss) ->
    exists u', uf_insert_with (extend_ft o tr q) (k, ft_name (sf_type f)) f tr u = (u', None) /\
               rep_u (ounion O (osingle k f ss)) u'.
  Proof.
    intros R Rt. set (typ := ft_name (sf_type f)) in *.
    assert (R2 : rep_u (osingle k f ss) [((k, typ), (f, tr))]).
    { split; [repeat constructor; auto|]. split.
      - intros k' typ' f' tr'. cbn [aget]. destruct (eqb (k', typ') (k, typ)) eqn:E; [|discriminate].
        apply eqb_ok in E. inversion E; subst k' typ'. intros H. inversion H; subst f' tr'.
        split; [auto|]. split; [exists ss; repeat split; auto|].
        eapply rep_ext; [exact Rt|]. intros x. unfold merged, osingle. split.
        + intros I. exists f, ss. auto.
        + intros (f' & ss' & (_ & -> & ->) & _ & I). auto.
      - intros k' f' ss' (-> & -> & ->). cbn [aget]. fold typ. rewrite eqb_rfl. eauto. }
    pose proof R as (N1 & S1 & C1).
    unfold uf_insert_with. destruct (aget (k, typ) u) as [[f0 t0]|] eqn:E.
    - destruct (S1 _ _ _ _ E) as (A & [ss0 B] & R0).
      destruct (extend_rep s frags o o_ok tr typ (fun x => In x ss) Rt t0 _ q R0) as (tr' & Ex & R').
      rewrite Ex. eexists. split; [reflexivity|].
      split; [apply NoDup_aset; auto|]. split.
      + intros k' typ' f' tr''. rewrite aget_aset. destruct (eqb (k', typ') (k, typ)) eqn:E2.
        * apply eqb_ok in E2. inversion E2; subst k' typ'. intros H. inversion H; subst f' tr''.
          split; [auto|]. split; [exists ss0; left; auto|].
          eapply rep_ext; [exact R'|]. intros x. rewrite merged_union. unfold munion.
          split; (intros [H1|H1]; [left; auto|right]).
          -- exists f, ss. unfold osingle. auto.
          -- destruct H1 as (f' & ss' & (_ & -> & ->) & _ & I). auto.
        * intros H. destruct (S1 _ _ _ _ H) as (A' & [ss' B'] & R''). split; [auto|].
          split; [exists ss'; left; auto|]. eapply rep_ext; [exact R''|]. intros x.
          rewrite merged_union. unfold munion. split; [auto|]. intros [|(f2 & ss2 & (-> & -> & ->) & Y & _)]; auto.
          apply eqb_neq in E2. exfalso. apply E2. unfold typ. congruence.
      + intros k' f' ss' [H|(-> & -> & ->)].
        * destruct (C1 _ _ _ H) as [v Hv]. rewrite aget_aset. destruct (eqb _ _); eauto.
        * fold typ. rewrite aget_aset_same. eauto.
    - eexists. split; [reflexivity|]. split; [apply NoDup_aset; auto|]. split.
      + intros k' typ' f' tr''. rewrite aget_aset. destruct (eqb (k', typ') (k, typ)) eqn:E2.
        * apply eqb_ok in E2. inversion E2; subst k' typ'. intros H. inversion H; subst f' tr''.
          split; [auto|]. split; [exists ss; right; unfold osingle; auto|].
          eapply rep_ext; [exact Rt|]. intros x. rewrite merged_union. unfold munion. split.
          -- intros I. right. exists f, ss. unfold osingle. auto.
          -- intros [(f' & ss' & Y1 & Y2 & Y3)|(f' & ss' & (_ & -> & ->) & _ & I)]; auto.
             destruct (C1 _ _ _ Y1) as [v Hv]. rewrite Y2 in Hv. congruence.
        * intros H. destruct (S1 _ _ _ _ H) as (A' & [ss' B'] & R''). split; [auto|].
          split; [exists ss'; left; auto|]. eapply rep_ext; [exact R''|]. intros x.
          rewrite merged_union. unfold munion. split; [auto|]. intros [|(f2 & ss2 & (-> & -> & ->) & Y & _)]; auto.
          apply eqb_neq in E2. exfalso. apply E2. unfold typ. congruence.
      + intros k' f' ss' [H|(-> & -> & ->)].
        * destruct (C1 _ _ _ H) as [v Hv]. rewrite aget_aset. destruct (eqb _ _); eauto.
        * fold typ. rewrite aget_aset_same. eauto.
  Qed.

  Lemma insert_all_ok P O keys par k f tr ss q :
    pstate P O keys par -> rep tr (ft_name (sf_type f)) (fun x => In x ss) ->
    exists par', insert_all o q k (ft_name (sf_type f)) f tr par = (par', None) /\
      pstate P (fun T => ounion (O T) (osingle k f ss)) keys par'.
  Proof.
    intros [A B N K R] Rt. unfold insert_all.
    pose proof (o_ok (0 :: q) _ (index_list (akeys (ct_objs par)))) as Pm.
    set (l := o (0 :: q) _ (index_list (akeys (ct_objs par)))) in *.
    set (hh := fun x : nat * string => obj_h (snd x, uf_insert_with (extend_ft o tr (fst x :: 1 :: q))
                 (k, ft_name (sf_type f)) f tr)).
    rewrite (fold_err_ext _ (fun x => upd (hh x))) by (intros; apply co_update_upd).
    rewrite <- (fold_err_map upd hh).
    assert (Ek : akeys (List.map hh l) = List.map snd l).
    { unfold akeys. rewrite map_map. apply map_ext. auto. }
    assert (Pk : Permutation (akeys (ct_objs par)) (List.map snd l)).
    { rewrite <- (index_list_map_snd (akeys (ct_objs par))). apply Permutation_map. auto. }
    assert (Nl : NoDup (akeys (List.map hh l))).
    { rewrite Ek. eapply Permutation_NoDup; eauto. }
    assert (Hh : forall T h, aget T (List.map hh l) = Some h -> exists j, h = snd (hh (j, T))).
    { intros T h H. apply aget_In in H. apply in_map_iff in H. destruct H as [[j T'] [H I]].
      unfold hh, obj_h in H. cbn in H. inversion H; subst. exists j. reflexivity. }
    destruct (fold_upd (List.map hh l) (ct_objs par) Nl N) as (m' & F & N' & G).
    { intros T h I. apply In_aget in I; auto. destruct (Hh T h I) as [j ->]. cbn [hh obj_h fst snd].
      destruct (aget T (ct_objs par)) as [u|] eqn:E; [|cbn; auto].
      destruct (uf_insert_ok (O T) u k f tr ss (j :: 1 :: q) (R _ _ E) Rt) as (u' & Eu & _).
      rewrite Eu. cbn. split; auto. discriminate. }
    rewrite F. eexists. split; [reflexivity|].
    assert (Gt : forall T, match aget T (ct_objs par) with
                           | Some _ => exists u', aget T m' = Some u' /\ rep_u (ounion (O T) (osingle k f ss)) u'
                           | None => aget T m' = None end).
    { intros T. rewrite G. destruct (aget T (ct_objs par)) as [u|] eqn:E.
      - destruct (aget T (List.map hh l)) as [h|] eqn:Eh.
        + destruct (Hh T h Eh) as [j ->]. cbn [hh obj_h fst snd].
          destruct (uf_insert_ok (O T) u k f tr ss (j :: 1 :: q) (R _ _ E) Rt) as (u' & Eu & Ru).
          rewrite Eu. cbn. eauto.
        + exfalso. apply aget_None in Eh. apply Eh. rewrite Ek.
          eapply Permutation_in; [exact Pk|]. eapply aget_Some_key; eauto.
      - destruct (aget T (List.map hh l)) as [h|] eqn:Eh; auto.
        destruct (Hh T h Eh) as [j ->]. reflexivity. }
    constructor; cbn; auto.
    - intros T. rewrite <- K. specialize (Gt T). split; intros I.
      + apply akeys_In_aget in I. destruct I as [v I].
        destruct (aget T (ct_objs par)) eqn:E; [eapply aget_Some_key; eauto|congruence].
      + apply akeys_In_aget in I. destruct I as [v I]. rewrite I in Gt. destruct Gt as (u' & Gt & _).
        eapply aget_Some_key; eauto.
    - intros T u E. specialize (Gt T). destruct (aget T (ct_objs par)) eqn:E1; [|congruence].
      destruct Gt as (u' & Gt & Ru). rewrite E in Gt. inversion Gt; subst. auto.
  Qed.

  (** *** Spreading *)
  Lemma akeys_filter {V} (g : string -> bool) (m : amap string V) :
    akeys (filter (fun x => g (fst x)) m) = filter g (akeys m).
  Proof.
    unfold akeys. induction m as [|[k v] m IH]; cbn; auto. destruct (g k); cbn; rewrite IH; auto.
  Qed.
  Lemma aget_filter {V} (g : string -> bool) (m : amap string V) k v :
    aget k (filter (fun x => g (fst x)) m) = Some v -> aget k m = Some v.
  Proof.
    induction m as [|[k' v'] m IH]; cbn; [auto|]. destruct (g k') eqn:E; cbn.
    - destruct (eqb k k'); auto.
    - intros H. destruct (eqb k k') eqn:E2; [|auto]. apply eqb_ok in E2. subst k'.
      exfalso. apply aget_Some_key in H. rewrite akeys_filter in H. apply filter_In in H. destruct H; congruence.
  Qed.

  Lemma extend_ct_ok P O keys par c O2 keys2 sub q :
    pstate P O keys par -> pstate c O2 keys2 sub ->
    exists par', extend_ct o q par sub = (par', None) /\
      pstate P (fun T k f ss => O T k f ss \/ (In T keys2 /\ O2 T k f ss)) keys par'.
  Proof.
    intros [A B N K R] [A2 B2 N2 K2 R2]. unfold extend_ct, ftrav_of_ctrav. rewrite extend_ft_cplx.
    destruct (extend_objs s frags o o_ok O O2 (ct_objs sub) (ct_objs par) q N2 N R R2) as (m' & F & Nm & G).
    { intros T u k typ f tr E Eg. apply extend_rep; auto. destruct (R2 T u E) as (_ & S2 & _). apply (S2 _ _ _ _ Eg). }
    match goal with |- context [fold_err co_update ?a ?b] =>
      replace (fold_err co_update a b) with (m', @None ir_error) by (symmetry; exact F) end.
    change (amap string ufields) in m'. clear F.
    assert (Gt : forall T, match aget T (ct_objs par) with
              | None => aget T m' = None
              | Some _ => exists u' : ufields, aget T m' = Some u' /\
                  rep_u (fun k f ss => O T k f ss \/ (In T (akeys (ct_objs sub)) /\ O2 T k f ss)) u'
              end) by exact G.
    eexists. split; [reflexivity|]. constructor; cbn; auto.
    - intros T. rewrite <- K. specialize (Gt T). split; intros I.
      + apply akeys_In_aget in I. destruct I as [v I].
        destruct (aget T (ct_objs par)) eqn:E; [eapply aget_Some_key; eauto|]. congruence.
      + apply akeys_In_aget in I. destruct I as [v I]. rewrite I in Gt.
        destruct Gt as (u' & Gt & _). eapply aget_Some_key; eauto.
    - intros T u E. specialize (Gt T). destruct (aget T (ct_objs par)) eqn:E1; [|congruence].
      destruct Gt as (u' & Gt & Ru). rewrite E in Gt. inversion Gt; subst.
      eapply rep_u_ext; [|exact Ru]. intros k f ss. cbn. rewrite K2. tauto.
  Qed.

  Lemma clone_ok P O keys par c pth p js :
    pstate P O keys par -> composite s c ->
    exists sub ws, clone_for_type_spread cx pth par c p js = Ok (sub, ws) /\
      pstate c (fun _ _ _ _ => False) (akeys (ct_objs sub)) sub /\
      (forall T, In T (akeys (ct_objs sub)) <-> possible s c T /\ In T keys).
  Proof.
    intros [A B N K R] C. unfold clone_for_type_spread. fold s.
    destruct (new_ctrav_ok c p C) as (base & E & Nm & L & Nd & Kb & Z). rewrite E.
    eexists. eexists. split; [reflexivity|]. cbn [ct_name ct_lookup ct_objs].
    set (g := fun T => amem T (ct_objs par)).
    assert (Kf : akeys (filter (fun x => amem (fst x) (ct_objs par)) (ct_objs base)) = filter g (akeys (ct_objs base)))
      by apply (akeys_filter g).
    split.
    - constructor; cbn [ct_name ct_lookup ct_objs]; auto.
      + rewrite Kf. apply NoDup_filter. auto.
      + reflexivity.
      + intros T u Eg. apply (aget_filter g) in Eg. rewrite (Z T u Eg). apply rep_u_nil.
    - intros T. rewrite Kf, filter_In, Kb. unfold g. rewrite amem_spec, K. tauto.
  Qed.

  (** *** Occurrences of a single selection *)
  Lemma focc_cons T P x l k f ss :
    focc T P (fun y => In y (x :: l)) k f ss <->
    focc T P (fun y => y = x) k f ss \/ focc T P (fun y => In y l) k f ss.
  Proof.
    transitivity (focc T P (munion (fun y => y = x) (fun y => In y l)) k f ss).
    - apply focc_ext. intros y. unfold munion. cbn. split; intros [H|H]; auto.
    - apply focc_union.
  Qed.
  Lemma focc_nil T P k f ss : ~ focc T P (fun y => In y []) k f ss.
  Proof. intros (P' & n & O & _). eapply occ_empty; [|exact O]. auto. Qed.
  Lemma focc_field T P lk p al n a d sub f0 k f ss :
    lookup_of s P lk -> aget n lk = Some f0 ->
    (focc T P (fun y => y = SField p al n a d sub) k f ss <->
     osingle (response_key al n) f0 sub k f ss).
  Proof.
    intros L E. unfold focc, osingle. split.
    - intros (P' & n' & O & F). inversion O; subst; try discriminate.
      match goal with H : SField _ _ _ _ _ _ = SField _ _ _ _ _ _ |- _ => inversion H; subst end.
      apply (field_of_lookup s _ lk _ f L) in F. split; [auto|]. split; [congruence|auto].
    - intros (-> & -> & ->). exists P, n. split; [eapply occ_field; reflexivity|].
      apply (field_of_lookup s P lk n f0 L). auto.
  Qed.
  Lemma focc_inline T P p c d sub k f ss :
    focc T P (fun y => y = SInline p (Some c) d sub) k f ss <->
    possible s c T /\ focc T c (fun y => In y sub) k f ss.
  Proof.
    unfold focc. split.
    - intros (P' & n & O & F). inversion O; subst; try discriminate.
      match goal with H : SInline _ _ _ _ = SInline _ _ _ _ |- _ => inversion H; subst end. eauto.
    - intros (Hp & P' & n & O & F). exists P', n. split; auto. eapply occ_inline; eauto.
  Qed.
  Lemma focc_spread T P p name d fd k f ss : aget name frags = Some fd ->
    focc T P (fun y => y = SSpread p name d) k f ss <->
    possible s (fr_cond fd) T /\ focc T (fr_cond fd) (fun y => In y (fr_sels fd)) k f ss.
  Proof.
    intros E. unfold focc. split.
    - intros (P' & n & O & F). inversion O; subst; try discriminate.
      match goal with H : SSpread _ _ _ = SSpread _ _ _ |- _ => inversion H; subst end.
      assert (fd0 = fd) as -> by congruence. eauto.
    - intros (Hp & P' & n & O & F). exists P', n. split; auto. eapply occ_spread; eauto.
  Qed.

  (** *** The main theorem *)
  Scheme valid_sel_ind2 := Induction for valid_sel Sort Prop
    with valid_sels_ind2 := Induction for valid_sels Sort Prop.
  Combined Scheme valid_mutind from valid_sel_ind2, valid_sels_ind2.

  Definition step_good (P : string) (x : selection) : Prop :=
    exists n, forall fuel, n <= fuel -> forall pth i O keys par js, pstate P O keys par ->
      exists par' ws, sel_step (collect fuel cx) cx pth i x par js = Some (inl (par', ws, [])) /\
        pstate P (fun T => ounion (O T) (focc T P (fun y => y = x))) keys par'.
  Definition loop_good (P : string) (l : list selection) : Prop :=
    exists n, forall fuel, n <= fuel -> forall pth i O keys par js ws errs, pstate P O keys par ->
      exists par' ws', collect_loop (collect fuel cx) cx pth i l par js ws errs = Some (par', ws', errs) /\
        pstate P (fun T => ounion (O T) (focc T P (fun y => In y l))) keys par'.

  Lemma spread_good P c p sub : composite s c -> loop_good c sub ->
    exists n, forall fuel, n <= fuel -> forall pth O keys par js, pstate P O keys par ->
      exists par' ws, spread_into (collect fuel cx) cx pth c p sub par js = Some (inl (par', ws, [])) /\
        pstate P (fun T => ounion (O T) (fun k f ss => possible s c T /\ focc T c (fun y => In y sub) k f ss)) keys par'.
  Proof.
    intros C [n Hn]. exists (S n). intros fuel Hf pth O keys par js Ps.
    destruct fuel as [|fuel]; [lia|]. unfold spread_into.
    destruct (clone_ok P O keys par c (0 :: pth) p js Ps C) as (subp & ws & Ec & Pc & Kc).
    rewrite Ec. rewrite collect_S.
    destruct (Hn fuel ltac:(lia) (1 :: pth) 0 _ _ subp js [] [] Pc) as (sub' & ws' & El & Pl).
    rewrite El.
    destruct (extend_ct_ok P O keys par c _ _ sub' (2 :: pth) Ps Pl) as (par' & Ee & Pe).
    fold o. rewrite Ee. eexists. eexists. split; [reflexivity|].
    eapply pstate_ext; [|exact Pe]. intros T k f ss I. cbn. unfold ounion. rewrite Kc. tauto.
  Qed.

  Lemma valid_good :
    (forall P x, valid_sel s frags P x -> step_good P x) /\
    (forall P l, valid_sels s frags P l -> loop_good P l).
  Proof.
    apply (valid_mutind s frags (fun P x _ => step_good P x) (fun P l _ => loop_good P l)).
    - (* leaf *)
      intros P p al n a d f F Nc. exists 0. intros fuel _ pth i O keys par js Ps.
      pose proof Ps as [A B N K R]. cbn [sel_step]. unfold insert_field.
      apply (field_of_lookup s P _ n f B) in F as G. rewrite G.
      destruct (fdef_is_complex (ft_def (sf_type f))) eqn:D.
      { exfalso. apply Nc. apply (complex_composite _ _ _ F). auto. }
      destruct (insert_all_ok P O keys par (response_key al n) f (FTerm (ft_name (sf_type f))) [] (1 :: i :: pth) Ps)
        as (par' & E & Ps').
      { constructor; auto. }
      unfold response_key in *. fold o. rewrite E. eexists. eexists. split; [reflexivity|].
      eapply pstate_ext; [|exact Ps']. intros T k f' ss I. unfold ounion.
      rewrite (focc_field T P _ p al n a d [] f k f' ss B G). unfold response_key. tauto.
    - (* composite *)
      intros P p al n a d f sub F C Ns V [m Hm]. exists (S m). intros fuel Hf pth i O keys par js Ps.
      destruct fuel as [|fuel]; [lia|].
      pose proof Ps as [A B N K R]. cbn [sel_step]. unfold insert_field.
      apply (field_of_lookup s P _ n f B) in F as G. rewrite G.
      destruct (fdef_is_complex (ft_def (sf_type f))) eqn:D.
      2: { exfalso. apply (complex_composite _ _ _ F) in C. congruence. }
      destruct sub as [|x sub]; [congruence|].
      destruct (new_ctrav_ok (ft_name (sf_type f)) p C) as (subp & En & Nn & Ln & Ndn & Kn & Zn).
      fold s. rewrite En.
      assert (P0 : pstate (ft_name (sf_type f)) (fun _ _ _ _ => False) (akeys (ct_objs subp)) subp).
      { constructor; auto. reflexivity. intros T u E. rewrite (Zn T u E). apply rep_u_nil. }
      rewrite collect_S.
      destruct (Hm fuel ltac:(lia) (2 :: i :: pth) 0 _ _ subp js [] [] P0) as (sub' & ws' & El & Pl).
      rewrite El.
      assert (Rs : rep (ftrav_of_ctrav sub') (ft_name (sf_type f)) (fun y => In y (x :: sub))).
      { pose proof Pl as [A1 B1 N1 K1 R1]. apply pstate_rep; auto.
        - constructor; auto; try reflexivity.
          intros T u E. eapply rep_u_ext; [|apply (R1 T u E)]. intros. unfold ounion. tauto.
        - intros T. rewrite K1. apply Kn. }
      destruct (insert_all_ok P O keys par (response_key al n) f _ (x :: sub) (1 :: i :: pth) Ps Rs) as (par' & E & Ps').
      unfold response_key in *. fold o. rewrite E. eexists. eexists. split; [reflexivity|].
      eapply pstate_ext; [|exact Ps']. intros T k f' ss I. unfold ounion.
      rewrite (focc_field T P _ p al n a d (x :: sub) f k f' ss B G). unfold response_key. tauto.
    - (* inline *)
      intros P p c d sub C V IH. destruct (spread_good P c p sub C IH) as [n Hn]. exists n.
      intros fuel Hf pth i O keys par js Ps. cbn [sel_step].
      destruct (Hn fuel Hf (i :: pth) O keys par (jump_inline js) Ps) as (par' & ws & E & Ps').
      rewrite E. eexists. eexists. split; [reflexivity|].
      eapply pstate_ext; [|exact Ps']. intros T k f ss I. unfold ounion. rewrite focc_inline. tauto.
    - (* spread *)
      intros P p name d fd E C V IH. destruct (spread_good P (fr_cond fd) p (fr_sels fd) C IH) as [n Hn]. exists n.
      intros fuel Hf pth i O keys par js Ps. cbn [sel_step]. fold frags. rewrite E.
      destruct (Hn fuel Hf (i :: pth) O keys par (jump_foreign js) Ps) as (par' & ws & E' & Ps').
      rewrite E'. eexists. eexists. split; [reflexivity|].
      eapply pstate_ext; [|exact Ps']. intros T k f ss I. unfold ounion. rewrite focc_spread by eauto. tauto.
    - (* nil *)
      intros P. exists 0. intros fuel _ pth i O keys par js ws errs Ps. cbn [collect_loop].
      eexists. eexists. split; [reflexivity|]. eapply pstate_ext; [|exact Ps].
      intros T k f ss I. unfold ounion. split; [auto|]. intros [|H]; auto. exfalso. eapply focc_nil; eauto.
    - (* cons *)
      intros P x l Vx [n1 H1] Vl [n2 H2]. exists (n1 + n2). intros fuel Hf pth i O keys par js ws errs Ps.
      rewrite collect_loop_cons.
      destruct (H1 fuel ltac:(lia) pth i O keys par js Ps) as (par1 & ws1 & E1 & Ps1). rewrite E1.
      destruct (H2 fuel ltac:(lia) pth (S i) _ keys par1 js (ws ++ ws1) (errs ++ []) Ps1) as (par2 & ws2 & E2 & Ps2).
      rewrite E2. rewrite app_nil_r. eexists. eexists. split; [reflexivity|].
      eapply pstate_ext; [|exact Ps2]. intros T k f ss I. unfold ounion. rewrite focc_cons. tauto.
  Qed.

  (** Collecting valid selections from a fresh parent *)
  Lemma collect_valid P sels p : composite s P -> valid_sels s frags P sels ->
    exists n, forall fuel, n <= fuel -> forall pth js, exists parent, new_ctrav s P p = Ok parent /\
      exists parent' ws, collect fuel cx pth sels parent js = Some (parent', ws, []) /\
        rep (ftrav_of_ctrav parent') P (fun x => In x sels).
  Proof.
    intros C V. destruct (proj2 valid_good P sels V) as [n Hn]. exists (S n).
    intros fuel Hf pth js. destruct fuel as [|fuel]; [lia|].
    destruct (new_ctrav_ok P p C) as (par & En & Nn & Ln & Ndn & Kn & Zn).
    exists par. split; [auto|]. rewrite collect_S.
    assert (P0 : pstate P (fun _ _ _ _ => False) (akeys (ct_objs par)) par).
    { constructor; auto. reflexivity. intros T u E. rewrite (Zn T u E). apply rep_u_nil. }
    destruct (Hn fuel ltac:(lia) pth 0 _ _ par js [] [] P0) as (par' & ws & E & Pl).
    exists par', ws. split; [auto|]. pose proof Pl as [A1 B1 N1 K1 R1]. apply pstate_rep; auto.
    - constructor; auto; try reflexivity.
      intros T u E'. eapply rep_u_ext; [|apply (R1 T u E')]. intros. unfold ounion. tauto.
    - intros T. rewrite K1. apply Kn.
  Qed.
End Main.
