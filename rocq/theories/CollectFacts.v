(** Field collection (ir.rs) computes, for every concrete object type, exactly the occurrences that
    the specification's [occ] describes. *)
From Verif Require Export SpecSel Ir BaseFacts.

(** *** Loops of independent updates of a map *)
Section Upd.
  Context {K V Er : Type} {HKe : EqB K} {HK : EqBOk K}.
  Definition upd (x : K * (option V -> option V * option Er)) (m : amap K V) : amap K V * option Er :=
    match snd x (aget (fst x) m) with
    | (Some v, e) => (aset (fst x) v m, e)
    | (None, e) => (m, e)
    end.

  Lemma fold_upd (l : list (K * (option V -> option V * option Er))) : forall m : amap K V,
    NoDup (akeys l) -> NoDup (akeys m) ->
    (forall k h, In (k, h) l -> snd (h (aget k m)) = None /\ (fst (h (aget k m)) = None -> aget k m = None)) ->
    exists m', fold_err upd l m = (m', None) /\ NoDup (akeys m') /\
      forall k, aget k m' = match aget k l with Some h => fst (h (aget k m)) | None => aget k m end.
  Proof.
    induction l as [|[k0 h0] l IH]; intros m Nl Nm H.
    - exists m. cbn. auto.
    - inversion Nl as [|? ? Nk Nl']; subst. cbn [fold_err]. unfold upd at 1. cbn [fst snd].
      destruct (H k0 h0 (or_introl eq_refl)) as [H1 H2].
      destruct (h0 (aget k0 m)) as [ov e] eqn:Eh. cbn [fst snd] in H1, H2. subst e.
      set (m1 := match ov with Some v => aset k0 v m | None => m end).
      assert (Ek : aget k0 m1 = ov).
      { unfold m1. destruct ov; [apply aget_aset_same | auto]. }
      assert (Eo : forall k, k <> k0 -> aget k m1 = aget k m).
      { intros k Hk. unfold m1. destruct ov; auto. apply aget_aset_other. auto. }
      destruct (IH m1) as (m' & F & N' & G).
      { auto. }
      { unfold m1. destruct ov; auto. apply NoDup_aset. auto. }
      { intros k h I. assert (k <> k0) as Hk. { intros ->. apply Nk. apply (in_map fst) in I. auto. }
        rewrite (Eo k Hk). apply (H k h). right; auto. }
      exists m'. split; [|split].
      + destruct ov; cbn; exact F.
      + auto.
      + intros k. rewrite G. cbn [aget]. destruct (eqb k k0) eqn:E.
        * apply eqb_ok in E. subst k.
          assert (aget k0 l = None) as -> by (apply aget_None; auto). rewrite Ek, Eh. auto.
        * apply eqb_neq in E. rewrite (Eo k E). auto.
  Qed.
End Upd.

Lemma fold_err_ext {X St E} (f g : X -> St -> St * option E) l :
  (forall x s, In x l -> f x s = g x s) -> forall s, fold_err f l s = fold_err g l s.
Proof.
  induction l as [|x l IH]; intros H s; cbn; auto.
  rewrite H by (left; auto). destruct (g x s) as [s' [e|]]; auto. apply IH. intros; apply H; right; auto.
Qed.
Lemma fold_err_map {X Y St E} (f : Y -> St -> St * option E) (g : X -> Y) l s :
  fold_err f (List.map g l) s = fold_err (fun x => f (g x)) l s.
Proof.
  revert s. induction l as [|x l IH]; intros s; cbn; auto.
  destruct (f (g x) s) as [s' [e|]]; auto.
Qed.

(** *** Indexed lists *)
Definition indexed_from {A} (i : nat) (l : list A) : list (nat * A) := combine (seq i (List.length l)) l.
Lemma indexed_from_cons {A} i (x : A) l : indexed_from i (x :: l) = (i, x) :: indexed_from (S i) l.
Proof. reflexivity. Qed.
Lemma indexed_snd {A} i (l : list A) : List.map snd (indexed_from i l) = l.
Proof. revert i. induction l; intros i; cbn; auto. f_equal. apply IHl. Qed.

(** *** One-step unfolding of [extend_ft] on complex traversals *)
Definition ent_step (o : order) (i : nat) (p : list nat) (y : nat * ((string * string) * (sfield * ftrav)))
  : ufields -> ufields * option ir_error :=
  uf_insert_with (extend_ft o (snd (snd (snd y))) (fst y :: i :: p))
                 (fst (snd y)) (fst (snd (snd y))) (snd (snd (snd y))).
Definition obj_step (o : order) (p : list nat) (x : nat * (string * ufields))
  : string * (ufields -> ufields * option ir_error) :=
  (fst (snd x), fold_err (fun g u => g u)
     (o (fst x :: p) _ (List.map (ent_step o (fst x) p) (indexed_from 0 (snd (snd x)))))).

Lemma extend_ft_cplx o otn olk oobjs p stn slk sobjs :
  extend_ft o (FCplx otn olk oobjs) p (FCplx stn slk sobjs) =
  let (objs', e) := fold_err co_update (o p _ (List.map (obj_step o p) (indexed_from 0 oobjs))) sobjs in
  (FCplx stn slk objs', e).
Proof.
  cbn [extend_ft].
  match goal with |- context [?f 0 oobjs] => set (prep := f) end.
  assert (Hp : forall i, prep i oobjs = List.map (obj_step o p) (indexed_from i oobjs)).
  { unfold prep. clear prep. induction oobjs as [|[tn ou] l IH]; intros i; auto.
    rewrite indexed_from_cons. cbn [List.map]. rewrite <- IH. f_equal.
    unfold obj_step. cbn [fst snd]. f_equal.
    match goal with |- context [?f 0 ou] => set (prepu := f) end.
    assert (Hu : forall j, prepu j ou = List.map (ent_step o i p) (indexed_from j ou)).
    { unfold prepu. clear. induction ou as [|[k [f tr]] l IH]; intros j; auto.
      rewrite indexed_from_cons. cbn [List.map]. rewrite <- IH. reflexivity. }
    rewrite Hu. reflexivity. }
  rewrite Hp. reflexivity.
Qed.

(** *** The representation relation *)
Section Rep.
  Variable s : schema.
  Variable frags : amap string fragdef.

  Definition ounion (O1 O2 : occset) : occset := fun k f ss => O1 k f ss \/ O2 k f ss.
  Definition munion (M1 M2 : selset) : selset := fun x => M1 x \/ M2 x.

  Notation focc := (focc s frags).

  Definition lookup_of (c : string) (lk : fields_lookup) : Prop :=
    exists t, get_type s c = Some t /\
      match st_def t with
      | TObject fs | TInterface _ fs _ | TUnion _ _ fs => lk = fs
      | _ => False
      end.

  Lemma lookup_composite c lk : lookup_of c lk -> composite s c.
  Proof. intros (t & E & H). exists t. split; auto. destruct (st_def t); auto. Qed.
  Lemma composite_lookup c : composite s c -> exists lk, lookup_of c lk.
  Proof.
    intros (t & E & H). unfold lookup_of.
    destruct (st_def t) eqn:D; try contradiction; eexists; exists t; rewrite D; split; eauto.
  Qed.
  Lemma lookup_fun c lk lk' : lookup_of c lk -> lookup_of c lk' -> lk = lk'.
  Proof.
    intros (t & E & H) (t' & E' & H'). rewrite E in E'. inversion E'; subst.
    destruct (st_def t'); try contradiction; congruence.
  Qed.
  Lemma field_of_lookup c lk n f : lookup_of c lk -> (field_of s c n f <-> aget n lk = Some f).
  Proof.
    intros (t & E & H). unfold field_of. split.
    - intros (t' & E' & H'). rewrite E in E'. inversion E'; subst.
      destruct (st_def t'); try contradiction; subst; auto.
    - intros G. exists t. split; auto. destruct (st_def t); try contradiction; subst; auto.
  Qed.

  Inductive rep : ftrav -> string -> selset -> Prop :=
  | rep_term tn (M : selset) :
      ~ composite s tn -> (forall x, ~ M x) -> rep (FTerm tn) tn M
  | rep_cplx tn lk objs (M : selset) :
      lookup_of tn lk ->
      NoDup (akeys objs) ->
      (forall T, In T (akeys objs) <-> possible s tn T) ->
      (forall T u, aget T objs = Some u -> NoDup (akeys u)) ->
      (forall T u k typ f tr, aget T objs = Some u -> aget (k, typ) u = Some (f, tr) ->
         ft_name (sf_type f) = typ /\ exists ss, focc T tn M k f ss) ->
      (forall T u k f ss, aget T objs = Some u -> focc T tn M k f ss ->
         exists v, aget (k, ft_name (sf_type f)) u = Some v) ->
      (forall T u k typ f tr, aget T objs = Some u -> aget (k, typ) u = Some (f, tr) ->
         rep tr typ (merged (focc T tn M) k typ)) ->
      rep (FCplx tn lk objs) tn M.

  Definition rep_u (O : occset) (u : ufields) : Prop :=
    NoDup (akeys u) /\
    (forall k typ f tr, aget (k, typ) u = Some (f, tr) ->
       ft_name (sf_type f) = typ /\ (exists ss, O k f ss) /\ rep tr typ (merged O k typ)) /\
    (forall k f ss, O k f ss -> exists v, aget (k, ft_name (sf_type f)) u = Some v).

  Lemma rep_cplx_intro tn lk objs M :
    lookup_of tn lk -> NoDup (akeys objs) -> (forall T, In T (akeys objs) <-> possible s tn T) ->
    (forall T u, aget T objs = Some u -> rep_u (focc T tn M) u) ->
    rep (FCplx tn lk objs) tn M.
  Proof.
    intros L N K H. constructor; auto.
    - intros T u E. apply (H T u E).
    - intros T u k typ f tr E G. destruct (H T u E) as (_ & S1 & _).
      destruct (S1 _ _ _ _ G) as (A & B & _). auto.
    - intros T u k f ss E O. destruct (H T u E) as (_ & _ & C). eauto.
    - intros T u k typ f tr E G. destruct (H T u E) as (_ & S1 & _). apply (S1 _ _ _ _ G).
  Qed.
  Lemma rep_cplx_inv tn lk objs typ M :
    rep (FCplx tn lk objs) typ M ->
    tn = typ /\ lookup_of tn lk /\ NoDup (akeys objs) /\ (forall T, In T (akeys objs) <-> possible s tn T) /\
    (forall T u, aget T objs = Some u -> rep_u (focc T tn M) u).
  Proof.
    intros H. inversion H as [|? ? ? ? L N K Nu Sd Cp Nr]; subst.
    split; [auto|]. split; [auto|]. split; [auto|]. split; [auto|].
    intros T u E. split; [|split].
    - eapply Nu; eauto.
    - intros k ty f tr G. destruct (Sd _ _ _ _ _ _ E G) as [A B]. split; [auto|]. split; [auto|].
      eapply Nr; eauto.
    - intros. eapply Cp; eauto.
  Qed.

  (** *** Occurrences depend only on the set of selections *)
  Lemma occ_mono T P (M M' : selset) k P' n ss :
    (forall x, M x -> M' x) -> occ s frags T P M k P' n ss -> occ s frags T P M' k P' n ss.
  Proof. intros H O. inversion O; subst; [eapply occ_field | eapply occ_inline | eapply occ_spread]; eauto. Qed.
  Lemma occ_ext T P (M M' : selset) k P' n ss :
    (forall x, M x <-> M' x) -> occ s frags T P M k P' n ss <-> occ s frags T P M' k P' n ss.
  Proof. intros H. split; apply occ_mono; apply H. Qed.
  Lemma occ_union T P M M' k P' n ss :
    occ s frags T P (munion M M') k P' n ss <->
    occ s frags T P M k P' n ss \/ occ s frags T P M' k P' n ss.
  Proof.
    split.
    - intros O. inversion O as [P0 M0 p al nm a d sub H|P0 M0 p c d sub k' P0' n' ss' H|P0 M0 p c d sub k' P0' n' ss' H]; subst;
        destruct H as [H|H];
        [left; eapply occ_field|right; eapply occ_field|left; eapply occ_inline|right; eapply occ_inline|left; eapply occ_spread|right; eapply occ_spread];
        eauto.
    - intros [O|O]; (eapply occ_mono; [|exact O]); unfold munion; auto.
  Qed.
  Lemma occ_empty T P (M : selset) k P' n ss : (forall x, ~ M x) -> ~ occ s frags T P M k P' n ss.
  Proof. intros H O. inversion O; subst; eapply H; eauto. Qed.

  Lemma focc_ext T P (M M' : selset) : (forall x, M x <-> M' x) -> forall k f ss, focc T P M k f ss <-> focc T P M' k f ss.
  Proof.
    intros H k f ss. unfold focc. split; intros (P' & n & O & F); exists P', n; split; auto;
      (eapply occ_ext; [|exact O]); auto. intros; symmetry; auto.
  Qed.
  Lemma focc_union T P M M' k f ss :
    focc T P (munion M M') k f ss <-> ounion (focc T P M) (focc T P M') k f ss.
  Proof.
    unfold focc, ounion. split.
    - intros (P' & n & O & F). apply occ_union in O. destruct O; [left|right]; eauto.
    - intros [(P' & n & O & F)|(P' & n & O & F)]; exists P', n; split; auto; apply occ_union; auto.
  Qed.
  Lemma merged_ext O O' k typ : (forall f ss, O k f ss <-> O' k f ss) -> forall x, merged O k typ x <-> merged O' k typ x.
  Proof.
    intros H x. unfold merged. split; intros (f & ss & A & B & C); exists f, ss; split; auto; apply H; auto.
  Qed.
  Lemma merged_union O O' k typ x :
    merged (ounion O O') k typ x <-> munion (merged O k typ) (merged O' k typ) x.
  Proof.
    unfold merged, ounion, munion. split.
    - intros (f & ss & [A|A] & B & C); [left|right]; eauto.
    - intros [(f & ss & A & B & C)|(f & ss & A & B & C)]; exists f, ss; auto.
  Qed.

  Lemma rep_ext tr tn M : rep tr tn M -> forall M', (forall x, M x <-> M' x) -> rep tr tn M'.
  Proof.
    induction 1 as [tn M Hc He|tn lk objs M Hl N K Nu Sd Cp Nr IH]; intros M' Hm.
    - constructor; auto. intros x Hx. apply (He x), Hm, Hx.
    - constructor; auto.
      + intros T u k typ f tr E G. destruct (Sd _ _ _ _ _ _ E G) as [A [ss B]]. split; auto.
        exists ss. eapply focc_ext; [|exact B]. intros; symmetry; auto.
      + intros T u k f ss E O. apply (Cp T u k f ss E). eapply focc_ext; [|exact O]. auto.
      + intros T u k typ f tr E G. eapply IH; eauto. intros x. apply merged_ext.
        intros f' ss. apply focc_ext. auto.
  Qed.
  Lemma rep_u_ext O O' u : (forall k f ss, O k f ss <-> O' k f ss) -> rep_u O u -> rep_u O' u.
  Proof.
    intros H (N & Sd & Cp). split; [|split]; auto.
    - intros k typ f tr G. destruct (Sd _ _ _ _ G) as (A & [ss B] & C). split; [auto|split].
      + exists ss. apply H. auto.
      + eapply rep_ext; eauto. intros x. apply merged_ext. auto.
    - intros k f ss X. apply (Cp k f ss). apply H. auto.
  Qed.
  Lemma rep_composite tr tn M : rep tr tn M -> (exists lk objs, tr = FCplx tn lk objs) /\ composite s tn \/ tr = FTerm tn /\ ~ composite s tn.
  Proof.
    intros H. inversion H; subst; [right|left]; split; auto.
    - eauto.
    - eapply lookup_composite; eauto.
  Qed.

  (** *** Extending unique fields *)
  Variable o : order.
  Hypothesis o_ok : order_ok o.

  Definition extends (tr : ftrav) (typ : string) (M2 : selset) : Prop :=
    forall self M1 p, rep self typ M1 ->
      exists tr', extend_ft o tr p self = (tr', None) /\ rep tr' typ (munion M1 M2).

  (** Lookup in a permuted, indexed list of steps *)
  Lemma aget_steps {A B : Type} {K : Type} {HKe : EqB K} {HK : EqBOk K}
        (l : list (K * A)) (F : nat * (K * A) -> K * B) l' :
    NoDup (akeys l) -> (forall x, fst (F x) = fst (snd x)) ->
    Permutation (List.map F (indexed_from 0 l)) l' ->
    NoDup (akeys l') /\
    forall k, match aget k l with
              | Some a => exists j, aget k l' = Some (snd (F (j, (k, a))))
              | None => aget k l' = None
              end.
  Proof.
    intros N HF Pm.
    assert (Ek : akeys (List.map F (indexed_from 0 l)) = akeys l).
    { unfold akeys. rewrite map_map. erewrite map_ext; [|apply HF].
      rewrite <- (map_map snd fst), indexed_snd. auto. }
    assert (N1 : NoDup (akeys (List.map F (indexed_from 0 l)))) by (rewrite Ek; auto).
    split.
    - eapply Permutation_NoDup; [|exact N1]. apply Permutation_map. auto.
    - intros k. rewrite <- (aget_perm _ _ N1 Pm). destruct (aget k l) eqn:E.
      + apply aget_In in E. rewrite <- (indexed_snd 0 l) in E. apply in_map_iff in E.
        destruct E as [[j [k' a']] [E I]]. cbn in E. inversion E; subst.
        exists j. apply In_aget; auto. apply in_map_iff. exists (j, (k, a)). split; auto.
        rewrite (surjective_pairing (F (j, (k, a)))). rewrite HF. auto.
      + apply aget_None. rewrite Ek. apply aget_None. auto.
  Qed.

  Definition ent_h (p : list nat) (i : nat) (y : nat * ((string * string) * (sfield * ftrav)))
    : (string * string) * (option (sfield * ftrav) -> option (sfield * ftrav) * option ir_error) :=
    (fst (snd y), fun ov =>
       match ov with
       | Some (f0, t0) => let (t', e) := extend_ft o (snd (snd (snd y))) (fst y :: i :: p) t0 in
                          (Some (f0, t'), e)
       | None => (Some (fst (snd (snd y)), snd (snd (snd y))), None)
       end).
  Lemma ent_step_upd p i y u : ent_step o i p y u = upd (ent_h p i y) u.
  Proof.
    unfold ent_step, uf_insert_with, upd, ent_h. cbn [fst snd].
    destruct (aget (fst (snd y)) u) as [[f0 t0]|]; auto.
    destruct (extend_ft _ _ _ t0) as [t' e]. auto.
  Qed.

  Lemma extend_u O1 O2 u1 u2 p i :
    rep_u O1 u1 -> rep_u O2 u2 ->
    (forall k typ f tr, aget (k, typ) u2 = Some (f, tr) -> extends tr typ (merged O2 k typ)) ->
    exists u', fold_err (fun g u => g u)
                 (o (i :: p) _ (List.map (ent_step o i p) (indexed_from 0 u2))) u1 = (u', None) /\
               rep_u (ounion O1 O2) u'.
  Proof.
    intros (N1 & S1 & C1) (N2 & S2 & C2) X.
    pose proof (o_ok (i :: p) _ (List.map (ent_step o i p) (indexed_from 0 u2))) as Pm.
    apply Permutation_sym, Permutation_map_inv in Pm. destruct Pm as (L & EL & PL).
    rewrite EL. rewrite fold_err_map.
    rewrite (fold_err_ext _ (fun x => upd (ent_h p i x))) by (intros; apply ent_step_upd).
    rewrite <- (fold_err_map upd (ent_h p i)).
    destruct (aget_steps u2 (ent_h p i) (List.map (ent_h p i) L) N2) as [NL HL].
    { reflexivity. } { apply Permutation_map. auto. }
    destruct (fold_upd (List.map (ent_h p i) L) u1 NL N1) as (u' & F & N' & G).
    { intros k h I. apply In_aget in I; auto. specialize (HL k).
      destruct (aget k u2) as [[f tr]|] eqn:E2; [|congruence].
      destruct HL as [j HL]. rewrite HL in I. inversion I; subst h. cbn [ent_h snd fst].
      destruct k as [k typ]. destruct (aget (k, typ) u1) as [[f0 t0]|] eqn:E1.
      - destruct (S1 _ _ _ _ E1) as (_ & _ & R). destruct (X _ _ _ _ E2 t0 _ (j :: i :: p) R) as (tr' & Ex & _).
        rewrite Ex. cbn. split; auto. discriminate.
      - cbn. split; auto. }
    exists u'. split; [exact F|].
    assert (Gk : forall k typ, aget (k, typ) u' =
        match aget (k, typ) u2 with
        | None => aget (k, typ) u1
        | Some (f, tr) =>
            match aget (k, typ) u1 with
            | None => Some (f, tr)
            | Some (f0, t0) => aget (k, typ) u'
            end
        end).
    { intros k typ. rewrite G. specialize (HL (k, typ)).
      destruct (aget (k, typ) u2) as [[f tr]|].
      - destruct HL as [j HL]. rewrite HL. cbn [ent_h snd fst].
        destruct (aget (k, typ) u1) as [[f0 t0]|]; auto.
      - rewrite HL. auto. }
    split; [auto|split].
    - intros k typ f tr Hg. destruct (aget (k, typ) u2) as [[f2 tr2]|] eqn:E2.
      + destruct (aget (k, typ) u1) as [[f0 t0]|] eqn:E1.
        * rewrite G in Hg. specialize (HL (k, typ)). rewrite E2 in HL. destruct HL as [j HL].
          rewrite HL, E1 in Hg. cbn [ent_h snd fst] in Hg.
          destruct (S1 _ _ _ _ E1) as (A & [ss B] & R).
          destruct (X _ _ _ _ E2 t0 _ (j :: i :: p) R) as (tr' & Ex & R').
          rewrite Ex in Hg. cbn in Hg. inversion Hg; subst f tr. split; [auto|split].
          -- exists ss. left. auto.
          -- eapply rep_ext; [exact R'|]. intros x. symmetry. apply merged_union.
        * rewrite Gk, E2, E1 in Hg. inversion Hg; subst f tr.
          destruct (S2 _ _ _ _ E2) as (A & [ss B] & R). split; [auto|split].
          -- exists ss. right. auto.
          -- eapply rep_ext; [exact R|]. intros x. rewrite merged_union. unfold munion.
             split; [auto|]. intros [(f & ss' & Y1 & Y2 & Y3)|]; auto.
             destruct (C1 _ _ _ Y1) as [v Hv]. rewrite Y2 in Hv. congruence.
      + rewrite Gk, E2 in Hg. destruct (S1 _ _ _ _ Hg) as (A & [ss B] & R). split; [auto|split].
        * exists ss. left. auto.
        * eapply rep_ext; [exact R|]. intros x. rewrite merged_union. unfold munion.
          split; [auto|]. intros [|(f' & ss' & Y1 & Y2 & Y3)]; auto.
          destruct (C2 _ _ _ Y1) as [v Hv]. rewrite Y2 in Hv. congruence.
    - intros k f ss [H|H].
      + destruct (C1 _ _ _ H) as [v Hv].
        destruct (aget (k, ft_name (sf_type f)) u') as [w|] eqn:Ew; eauto.
        exfalso. rewrite Gk, Hv in Ew. destruct (aget (k, ft_name (sf_type f)) u2) as [[f2 tr2]|] eqn:E2; [|discriminate].
        destruct v as [f0 t0]. rewrite G in Ew. specialize (HL (k, ft_name (sf_type f))). rewrite E2 in HL.
        destruct HL as [j HL]. rewrite HL, Hv in Ew. cbn [ent_h snd fst] in Ew.
        destruct (extend_ft _ _ _ t0). discriminate.
      + destruct (C2 _ _ _ H) as [[f2 tr2] Hv].
        destruct (aget (k, ft_name (sf_type f)) u') as [w|] eqn:Ew; eauto.
        exfalso. rewrite G in Ew. specialize (HL (k, ft_name (sf_type f))). rewrite Hv in HL.
        destruct HL as [j HL]. rewrite HL in Ew. cbn [ent_h snd fst] in Ew.
        destruct (aget (k, ft_name (sf_type f)) u1) as [[f0 t0]|]; [|discriminate].
        destruct (extend_ft _ _ _ t0). discriminate.
  Qed.

  (** *** Extending the maps of concrete objects *)
  Definition obj_h (x : string * (ufields -> ufields * option ir_error))
    : string * (option ufields -> option ufields * option ir_error) :=
    (fst x, fun ou => match ou with Some u => let (u', e) := snd x u in (Some u', e) | None => (None, None) end).
  Lemma co_update_upd x objs : co_update x objs = upd (obj_h x) objs.
  Proof.
    unfold co_update, upd, obj_h. cbn [fst snd]. destruct (aget (fst x) objs) as [u|]; auto.
    destruct (snd x u). auto.
  Qed.

  Lemma extend_objs (O1 O2 : string -> occset) oobjs sobjs p :
    NoDup (akeys oobjs) -> NoDup (akeys sobjs) ->
    (forall T u, aget T sobjs = Some u -> rep_u (O1 T) u) ->
    (forall T u, aget T oobjs = Some u -> rep_u (O2 T) u) ->
    (forall T u k typ f tr, aget T oobjs = Some u -> aget (k, typ) u = Some (f, tr) ->
       extends tr typ (merged (O2 T) k typ)) ->
    exists objs', fold_err co_update (o p _ (List.map (obj_step o p) (indexed_from 0 oobjs))) sobjs = (objs', None) /\
      NoDup (akeys objs') /\
      forall T, match aget T sobjs with
                | None => aget T objs' = None
                | Some _ => exists u', aget T objs' = Some u' /\
                    rep_u (fun k f ss => O1 T k f ss \/ (In T (akeys oobjs) /\ O2 T k f ss)) u'
                end.
  Proof.
    intros N2 N1 R1 R2 X.
    pose proof (o_ok p _ (List.map (obj_step o p) (indexed_from 0 oobjs))) as Pm.
    set (l := o p _ (List.map (obj_step o p) (indexed_from 0 oobjs))) in *.
    rewrite (fold_err_ext _ (fun x => upd (obj_h x))) by (intros; apply co_update_upd).
    rewrite <- (fold_err_map upd obj_h).
    destruct (aget_steps oobjs (fun y => obj_h (obj_step o p y)) (List.map obj_h l) N2) as [NL HL].
    { reflexivity. } { rewrite <- (map_map (obj_step o p) obj_h). apply Permutation_map. auto. }
    destruct (fold_upd (List.map obj_h l) sobjs NL N1) as (m' & F & N' & G).
    { intros T h I. apply In_aget in I; auto. specialize (HL T).
      destruct (aget T oobjs) as [u2|] eqn:E2; [|congruence]. destruct HL as [j HL].
      rewrite HL in I. inversion I; subst h. cbn [obj_h obj_step fst snd].
      destruct (aget T sobjs) as [u1|] eqn:E1; [|cbn; auto].
      destruct (extend_u (O1 T) (O2 T) u1 u2 p j (R1 _ _ E1) (R2 _ _ E2)) as (u' & Fu & _).
      { intros. eapply X; eauto. }
      match goal with |- context [fold_err ?a ?b ?c] => change (fold_err a b c) with (fold_err a b c) end.
      rewrite Fu. cbn. split; auto. discriminate. }
    exists m'. split; [exact F|]. split; [auto|]. intros T. rewrite G. specialize (HL T).
    destruct (aget T oobjs) as [u2|] eqn:E2.
    - destruct HL as [j HL]. rewrite HL. cbn [obj_h obj_step fst snd].
      destruct (aget T sobjs) as [u1|] eqn:E1; [|auto].
      destruct (extend_u (O1 T) (O2 T) u1 u2 p j (R1 _ _ E1) (R2 _ _ E2)) as (u' & Fu & Ru).
      { intros. eapply X; eauto. }
      rewrite Fu. cbn. exists u'. split; auto. eapply rep_u_ext; [|exact Ru].
      intros k f ss. unfold ounion. apply aget_Some_key in E2. tauto.
    - rewrite HL. destruct (aget T sobjs) as [u1|] eqn:E1; auto. exists u1. split; auto.
      eapply rep_u_ext; [|exact (R1 _ _ E1)]. intros k f ss. apply aget_None in E2. tauto.
  Qed.

  Lemma extend_rep : forall other tn M2, rep other tn M2 -> extends other tn M2.
  Proof.
    intros other tn M2 H. induction H as [tn M2 Hc He|tn lk oobjs M2 Hl N K Nu Sd Cp Nr IH];
      intros self M1 p R.
    - destruct (rep_composite _ _ _ R) as [[_ Hc']|[-> _]]; [contradiction|].
      exists (FTerm tn). split; auto. inversion R; subst. constructor; auto.
      intros x [Hx|Hx]; [eapply H1 | eapply He]; eauto.
    - destruct (rep_composite _ _ _ R) as [[(lk' & sobjs & ->) _]|[_ Hc]].
      2: { exfalso. apply Hc. eapply lookup_composite; eauto. }
      rewrite extend_ft_cplx. apply rep_cplx_inv in R. destruct R as (_ & Hl' & N' & K' & R').
      destruct (extend_objs (fun T => focc T tn M1) (fun T => focc T tn M2) oobjs sobjs p) as (objs' & F & No & G); auto.
      { intros T u E. split; [|split].
        - eapply Nu; eauto.
        - intros k typ f tr Eg. destruct (Sd _ _ _ _ _ _ E Eg) as [A B]. repeat split; auto. eapply Nr; eauto.
        - intros. eapply Cp; eauto. }
      match goal with |- context [fold_err co_update ?a ?b] =>
        replace (fold_err co_update a b) with (objs', @None ir_error) by (symmetry; exact F) end.
      eexists. split; [reflexivity|]. unfold ufields, amap in *. apply rep_cplx_intro; auto.
      + intros T. rewrite <- K'. specialize (G T). split; intros I.
        * destruct (aget T sobjs) eqn:E; [eapply aget_Some_key; eauto|].
          apply akeys_In_aget in I. destruct I as [v I]. unfold ufields, amap in *. congruence.
        * apply akeys_In_aget in I. destruct I as [v I]. rewrite I in G. destruct G as (u' & G & _).
          eapply aget_Some_key; eauto.
      + intros T u E. unfold ufields, amap in *. specialize (G T). destruct (aget T sobjs) eqn:E1; [|(unfold ufields, amap in *; congruence)].
        destruct G as (u' & G & Ru). rewrite E in G. inversion G; subst u'.
        eapply rep_u_ext; [|exact Ru]. intros k f ss. rewrite focc_union. unfold ounion.
        assert (In T (akeys oobjs)). { apply K, K'. eapply aget_Some_key; eauto. }
        tauto.
  Qed.
End Rep.
