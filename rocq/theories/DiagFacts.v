(** Consequences of the relation of [SelRun]: errors, warnings and termination. *)
From Verif Require Export SpecDiag ShapeIr.

Lemma field_of_fun s c n f f' : field_of s c n f -> field_of s c n f' -> f = f'.
Proof.
  intros (t & E & H) (t' & E' & H'). rewrite E in E'. inversion E'; subst t'.
  destruct (st_def t); try contradiction; congruence.
Qed.

Ltac same_field :=
  repeat match goal with
  | U : (forall f, ~ field_of ?s ?P ?n f), F : field_of ?s ?P ?n ?g |- _ => exfalso; exact (U _ F)
  | F : field_of ?s ?P ?n ?f, G : field_of ?s ?P ?n ?g |- _ =>
      let E := fresh in pose proof (field_of_fun _ _ _ _ _ F G) as E; first [subst g | subst f]; clear G
  end; try contradiction; try congruence.

Definition is_depr (w : warning) : bool := match w with WDeprecatedFieldUse _ _ _ => true | _ => false end.
Definition is_over (w : warning) : bool := match w with WOverFragmentNarrowing _ _ _ => true | _ => false end.

Section Facts.
  Variable s : schema.
  Variable frags : amap string fragdef.
  Variable dep : bool.
  Notation srun := (srun s frags dep).
  Notation prun := (prun s frags dep).
  Notation crun := (crun s frags dep).
  Notation within := (within s).
  Notation complaint := (complaint s frags).

  Lemma within_incl P l l' P' x : incl l l' -> within P l P' x -> within P l' P' x.
  Proof. intros H W. inversion W; subst; [eapply wi_here|eapply wi_field|eapply wi_inline]; eauto. Qed.
  Lemma within_cons P x l P' y : within P (x :: l) P' y -> within P [x] P' y \/ within P l P' y.
  Proof.
    intros W. inversion W as [? ? ? I|? ? ? ? ? ? ? ? ? ? ? I|? ? ? ? ? ? ? ? I]; subst; destruct I as [Ex|I]; try subst x.
    - left. apply wi_here. left; auto.
    - right. apply wi_here. auto.
    - left. eapply wi_field; eauto. left; auto.
    - right. eapply wi_field; eauto.
    - left. eapply wi_inline; eauto. left; auto.
    - right. eapply wi_inline; eauto.
  Qed.
  Lemma within_written P l P' x : within P l P' x -> written l x.
  Proof. induction 1; [eapply wr_here|eapply wr_field|eapply wr_inline]; eauto. Qed.
  Lemma complaint_bad P x e : complaint P x e -> bad_selection s frags P x.
  Proof.
    intros H. inversion H; subst; try (econstructor; eauto; fail).
    - apply bad_condition. intros (t & E & _). congruence.
    - apply bad_condition. destruct H0 as (t & E & D). intros (t' & E' & D'). rewrite E in E'.
      inversion E'; subst. destruct (st_def t'); contradiction.
    - apply bad_condition. intros (t' & E' & D'). rewrite H0 in E'. inversion E'; subst. rewrite H1 in D'. auto.
  Qed.
  Lemma bad_cond_complaint P p c d sub e : bad_cond s c p e -> complaint P (SInline p (Some c) d sub) e.
  Proof.
    intros H. inversion H; subst.
    - apply co_unknown_type; auto.
    - apply co_leaf_type. eexists; eauto.
    - eapply co_input_type; eauto.
  Qed.

  (** *** Errors are complaints about selections of the document *)
  Lemma run_errors_sound :
    (forall js P K x ws es, srun js P K x ws es -> js = RootLocal ->
       forall e, In e es -> exists P' y, within P [x] P' y /\ complaint P' y e) /\
    (forall js K c p sub ws es, prun js K c p sub ws es -> js = RootLocal ->
       forall e, In e es -> (~ composite s c /\ bad_cond s c p e) \/
         (composite s c /\ exists P' y, within c sub P' y /\ complaint P' y e)) /\
    (forall js P K l ws es, crun js P K l ws es -> js = RootLocal ->
       forall e, In e es -> exists P' y, within P l P' y /\ complaint P' y e).
  Proof.
    apply run_mutind.
    - intros js P K p al n a d sub l H L _ e [<-|[]]. eexists P, _. split; [apply wi_here; left; reflexivity|].
      constructor; auto.
    - intros js P K p al n a d f F C _ e [<-|[]]. eexists P, _. split; [apply wi_here; left; reflexivity|].
      constructor; auto.
    - intros js P K p al n a d f x sub F C _ e [<-|[]]. eexists P, _. split; [apply wi_here; left; reflexivity|].
      constructor; auto. discriminate.
    - intros js P K p al n a d f F C _ e [].
    - intros js P K p al n a d f x sub ws F C _ _ _ e [].
    - intros js P K p al n a d f x sub ws e0 es F C R IH J e I. destruct (IH J e I) as (P' & y & W & Co).
      exists P', y. split; auto. eapply wi_field; eauto. left; reflexivity.
    - intros js P K p d sub _ e [<-|[]]. eexists P, _. split; [apply wi_here; left; reflexivity|]. constructor.
    - intros js P K p c d sub ws es R IH J e I. subst js. destruct (IH eq_refl e I) as [[C B]|[C (P' & y & W & Co)]].
      + eexists P, _. split; [apply wi_here; left; reflexivity|]. apply bad_cond_complaint; auto.
      + exists P', y. split; auto. eapply wi_inline; eauto. left; reflexivity.
    - intros js P K p n d l E L _ e [<-|[]]. eexists P, _. split; [apply wi_here; left; reflexivity|].
      constructor; auto.
    - intros js P K p n d fd ws es E R IH J e I. exfalso. subst js. inversion R; subst; destruct I.
    - intros js K c p sub e0 C B J e I. subst js. cbn in I. destruct I as [<-|[]]. left; auto.
    - intros js K c p sub w0 ws es C N R IH J e I. subst js. cbn in I. right. split; auto.
    - intros js P K _ e [].
    - intros js P K x l ws es ws' es' R1 IH1 R2 IH2 J e I. apply in_app_iff in I. destruct I as [I|I].
      + destruct (IH1 J e I) as (P' & y & W & Co). exists P', y. split; auto.
        eapply within_incl; [|exact W]. intros z [<-|[]]. left; auto.
      + destruct (IH2 J e I) as (P' & y & W & Co). exists P', y. split; auto.
        eapply within_incl; [|exact W]. intros z Hz. right; auto.
  Qed.

  (** *** Every invalid selection of the document is complained about *)
  Lemma crun_in js P K l ws es x : crun js P K l ws es -> In x l ->
    exists ws' es', srun js P K x ws' es' /\ incl es' es /\ incl ws' ws.
  Proof.
    induction 1 as [|js P K y l ws es ws' es' R1 R2 IH]; intros I; [destruct I|].
    destruct I as [<-|I].
    - exists ws, es. split; [auto|]. split; apply incl_appl, incl_refl.
    - destruct (IH I) as (w & e & R & I1 & I2). exists w, e. split; [auto|]. split; apply incl_appr; auto.
  Qed.
  Lemma prun_local K c p sub ws es : prun RootLocal K c p sub ws es ->
    ~ composite s c /\ (exists e, es = [e] /\ bad_cond s c p e) \/
    composite s c /\ exists w0 ws', ws = (w0 ++ ws')%list /\ narrow_warn s RootLocal c p K w0 /\
      crun RootLocal c (narrow s c K) sub ws' es.
  Proof. intros H. inversion H; subst; [left|right]; split; auto; cbn; eauto 8. Qed.

  Lemma bad_reported_here P K x ws es : srun RootLocal P K x ws es -> bad_selection s frags P x ->
    exists e, In e es /\ complaint P x e.
  Proof.
    intros R B. inversion B; subst; inversion R; subst; same_field;
      try (eexists; (split; [left; reflexivity|]); constructor; auto; fail).
    match goal with X : prun _ _ _ _ _ _ _ |- _ =>
      apply prun_local in X; destruct X as [[_ (e & -> & Bc)]|[C _]] end; [|contradiction].
    exists e. split; [left; auto|]. apply bad_cond_complaint; auto.
  Qed.

  Lemma within_nil P P' x : ~ within P [] P' x.
  Proof. intros W. inversion W; subst; match goal with X : In _ [] |- _ => destruct X end. Qed.

  Lemma run_errors_complete P l P' x : within P l P' x -> forall K ws es,
    crun RootLocal P K l ws es -> bad_selection s frags P' x -> exists e, In e es /\ complaint P' x e.
  Proof.
    induction 1 as [P l x I|P l p al n a d f sub P' x I F C W IH|P l p c d sub P' x I C W IH]; intros K ws es R B.
    - destruct (crun_in _ _ _ _ _ _ _ R I) as (w & e & Rx & I1 & _).
      destruct (bad_reported_here _ _ _ _ _ Rx B) as (e0 & Ie & Ce). exists e0. split; auto.
    - destruct (crun_in _ _ _ _ _ _ _ R I) as (w & e & Rx & I1 & _).
      inversion Rx; subst; same_field; try (exfalso; eapply within_nil; eauto; fail).
      + match goal with X : crun _ _ _ _ _ [] |- _ => destruct (IH _ _ _ X B) as (e0 & [] & _) end.
      + match goal with X : crun _ _ _ _ _ (_ :: _) |- _ => destruct (IH _ _ _ X B) as (e1 & Ie & Ce) end.
        exists e1. split; auto.
    - destruct (crun_in _ _ _ _ _ _ _ R I) as (w & e & Rx & I1 & _).
      inversion Rx; subst. match goal with X : prun _ _ _ _ _ _ _ |- _ => apply prun_local in X;
        destruct X as [[Nc _]|[_ (w0 & ws' & _ & _ & Rs)]] end; [contradiction|].
      destruct (IH _ _ _ Rs B) as (e1 & Ie & Ce). exists e1. split; auto.
  Qed.

  (** *** Deprecations *)
  Definition depr_warning (x : pos * string * string) : warning :=
    let '(p, n, P) := x in WDeprecatedFieldUse p n P.
  Definition depr_list (l : list (pos * string * string)) : list warning :=
    if dep then List.map depr_warning l else [].

  Lemma lookup_field P n f : field_of s P n f ->
    match get_type s P with
    | Some t => match st_def t with
                | TObject fs | TInterface _ fs _ | TUnion _ _ fs => aget n fs
                | _ => None
                end
    | None => None
    end = Some f.
  Proof. intros (t & E & H). rewrite E. destruct (st_def t); try contradiction; auto. Qed.

  Lemma depr_list_app a b : depr_list (a ++ b) = (depr_list a ++ depr_list b)%list.
  Proof. unfold depr_list. destruct dep; auto. apply map_app. Qed.
  Lemma filter_depr_of js p f P : filter is_depr (depr_of dep js p f P) = depr_of dep js p f P.
  Proof. unfold depr_of. destruct (dep && sf_deprecated f && is_local js); auto. Qed.
  Lemma depr_of_local p f P : depr_of dep RootLocal p f P =
    depr_list (if sf_deprecated f then [(p, sf_name f, P)] else []).
  Proof. unfold depr_of, depr_list. destruct dep, (sf_deprecated f); auto. Qed.
  Lemma depr_of_foreign js p f P : js <> RootLocal -> depr_of dep js p f P = [].
  Proof. intros H. unfold depr_of. destruct js; try congruence; cbn [is_local]; rewrite andb_false_r; auto. Qed.
  Lemma narrow_warn_depr js c p K w : narrow_warn s js c p K w -> filter is_depr w = [].
  Proof. intros H. inversion H; auto. Qed.

  Lemma run_depr :
    (forall js P K x ws es, srun js P K x ws es ->
       (js <> RootLocal -> filter is_depr ws = []) /\
       (js = RootLocal -> es = [] -> filter is_depr ws = depr_list (deprecated_uses s P x))) /\
    (forall js K c p sub ws es, prun js K c p sub ws es ->
       (js <> RootLocal -> filter is_depr ws = []) /\
       (js = RootLocal -> es = [] -> filter is_depr ws = depr_list (flat_map (deprecated_uses s c) sub))) /\
    (forall js P K l ws es, crun js P K l ws es ->
       (js <> RootLocal -> filter is_depr ws = []) /\
       (js = RootLocal -> es = [] -> filter is_depr ws = depr_list (flat_map (deprecated_uses s P) l))).
  Proof.
    apply run_mutind.
    - intros. split; [auto|discriminate].
    - intros. split; [auto|discriminate].
    - intros. split; [auto|discriminate].
    - intros js P K p al n a d f F C. split.
      + intros J. rewrite depr_of_foreign; auto.
      + intros -> _. rewrite filter_depr_of, depr_of_local. cbn [deprecated_uses]. rewrite (lookup_field _ _ _ F). auto.
    - intros js P K p al n a d f x sub ws F C R [IH1 IH2]. rewrite filter_app, filter_depr_of. split.
      + intros J. rewrite IH1, depr_of_foreign; auto.
      + intros -> _. rewrite IH2 by auto. rewrite depr_of_local, <- depr_list_app.
        cbn [deprecated_uses]. rewrite (lookup_field _ _ _ F). auto.
    - intros js P K p al n a d f x sub ws e es F C R [IH1 IH2]. split; [auto|discriminate].
    - intros. split; [auto|discriminate].
    - intros js P K p c d sub ws es R [IH1 IH2]. split.
      + intros J. apply IH1. destruct js; try congruence; discriminate.
      + intros -> E. cbn [deprecated_uses]. apply IH2; auto.
    - intros. split; [auto|discriminate].
    - intros js P K p n d fd ws es E R [IH1 _]. split.
      + intros J. apply IH1. destruct js; discriminate.
      + intros -> _. rewrite IH1 by discriminate. unfold depr_list. cbn. destruct dep; auto.
    - intros js K c p sub e C B. split; [auto|]. intros -> H. discriminate.
    - intros js K c p sub w0 ws es C N R [IH1 IH2]. rewrite filter_app, (narrow_warn_depr _ _ _ _ _ N). cbn [app]. split; [auto|].
      intros -> E. cbn in E. auto.
    - intros. split; [auto|]. intros _ _. unfold depr_list. destruct dep; auto.
    - intros js P K x l ws es ws' es' R1 [A1 A2] R2 [B1 B2]. rewrite filter_app. split.
      + intros J. rewrite A1, B1; auto.
      + intros J E. apply app_eq_nil in E. destruct E as [-> ->]. rewrite A2, B2 by auto.
        cbn [flat_map]. rewrite depr_list_app. auto.
  Qed.

  (** *** Over-narrowing *)
  Definition over_matches (w : warning) (x : pos * string * types) : Prop :=
    let '(p, c, K) := x in exists l, w = WOverFragmentNarrowing p l c /\ forall T, In T l <-> K T.

  Lemma depr_not_over js p f P : filter is_over (depr_of dep js p f P) = [].
  Proof. unfold depr_of. destruct (dep && sf_deprecated f && is_local js); auto. Qed.

  Lemma not_none_composite c K : ~ none (both s c K) -> ~ ~ composite s c.
  Proof.
    intros H C. apply H. intros T [(t & E & D) _]. apply C. exists t. split; auto. destruct (st_def t); auto.
  Qed.

  Lemma run_over :
    (forall js P K x ws es, srun js P K x ws es ->
       (js <> RootLocal -> filter is_over ws = []) /\
       (js = RootLocal -> es = [] -> exists out, vacuous_sel s frags P K x out /\ Forall2 over_matches (filter is_over ws) out)) /\
    (forall js K c p sub ws es, prun js K c p sub ws es ->
       (js = FullyJumped -> filter is_over ws = []) /\
       (js = JustChanged -> (~ composite s c /\ filter is_over ws = []) \/
          (composite s c /\ ~ none (both s c K) /\ filter is_over ws = []) \/
          (composite s c /\ none (both s c K) /\ Forall2 over_matches (filter is_over ws) [(p, c, K)])) /\
       (js = RootLocal -> es = [] -> exists out, vacuous s frags c (both s c K) sub out /\
          (~ none (both s c K) /\ Forall2 over_matches (filter is_over ws) out \/
           none (both s c K) /\ Forall2 over_matches (filter is_over ws) ((p, c, K) :: out)))) /\
    (forall js P K l ws es, crun js P K l ws es ->
       (js <> RootLocal -> filter is_over ws = []) /\
       (js = RootLocal -> es = [] -> exists out, vacuous s frags P K l out /\ Forall2 over_matches (filter is_over ws) out)).
  Proof.
    apply run_mutind.
    - intros. split; [auto|discriminate].
    - intros. split; [auto|discriminate].
    - intros. split; [auto|discriminate].
    - intros js P K p al n a d f F C. rewrite depr_not_over. split; [auto|]. intros _ _. exists [].
      split; [constructor|constructor].
    - intros js P K p al n a d f x sub ws F C R [IH1 IH2]. rewrite filter_app, depr_not_over, app_nil_r.
      split; [auto|]. intros J _. destruct (IH2 J eq_refl) as (out & V & M). exists out. split; [|auto].
      eapply va_sub; eauto. discriminate.
    - intros js P K p al n a d f x sub ws e es F C R [IH1 IH2]. split; [auto|discriminate].
    - intros. split; [auto|discriminate].
    - intros js P K p c d sub ws es R (IH1 & IH2 & IH3). split.
      + intros J. apply IH1. destruct js; try congruence; auto.
      + intros -> E. destruct (IH3 eq_refl E) as (out & V & [[N M]|[N M]]).
        * exists out. split; auto. apply va_inline; auto.
        * eexists. split; [|exact M]. apply va_inline_none; auto.
    - intros. split; [auto|discriminate].
    - intros js P K p n d fd ws es E R (IH1 & IH2 & IH3). split.
      + intros J. apply IH1. destruct js; try congruence; auto.
      + intros -> _. destruct (IH2 eq_refl) as [[C M]|[(C & N & M)|(C & N & M)]].
        * exists []. rewrite M. split; [eapply va_spread_bad; eauto|constructor].
        * exists []. rewrite M. split; [eapply va_spread; eauto|constructor].
        * eexists. split; [|exact M]. eapply va_spread_none; eauto.
    - intros js K c p sub e C B. split; [auto|]. split; [auto|]. intros -> H. discriminate.
    - intros js K c p sub w0 ws es C N R [IH1 IH2]. rewrite filter_app. split; [|split].
      + intros ->. rewrite IH1 by discriminate. inversion N; subst; auto. congruence.
      + intros ->. rewrite IH1 by discriminate. rewrite app_nil_r. right. inversion N as [l J Em Li|J|Ne]; subst.
        * right. split; [auto|]. split; [exact Em|]. cbn. constructor; [|constructor]. exists l. split; auto.
        * discriminate.
        * left. auto.
      + intros -> E. cbn in E. destruct (IH2 eq_refl E) as (out & V & M). exists out. split; [exact V|].
        inversion N as [l J Em Li|J|Ne]; subst.
        * right. split; [exact Em|]. cbn. constructor; [|auto]. exists l. split; auto.
        * discriminate.
        * left. split; auto.
    - intros. split; [auto|]. intros _ _. exists []. split; constructor.
    - intros js P K x l ws es ws' es' R1 [A1 A2] R2 [B1 B2]. rewrite filter_app. split.
      + intros J. rewrite A1, B1; auto.
      + intros J E. apply app_eq_nil in E. destruct E as [-> ->].
        destruct (A2 J eq_refl) as (o1 & V1 & M1). destruct (B2 J eq_refl) as (o2 & V2 & M2).
        exists (o1 ++ o2)%list. split; [constructor; auto|]. apply Forall2_app; auto.
  Qed.

  (** *** Positions of warnings *)
  Definition warning_pos (w : warning) : pos :=
    match w with WOverFragmentNarrowing p _ _ | WDeprecatedFieldUse p _ _ => p end.

  Lemma run_warnings_nonlocal :
    (forall js P K x ws es, srun js P K x ws es -> js <> RootLocal -> ws = []) /\
    (forall js K c p sub ws es, prun js K c p sub ws es ->
       (js = FullyJumped -> ws = []) /\ (js = JustChanged -> forall w, In w ws -> warning_pos w = p)) /\
    (forall js P K l ws es, crun js P K l ws es -> js <> RootLocal -> ws = []).
  Proof.
    apply run_mutind; intros; auto.
    - apply depr_of_foreign; auto.
    - rewrite H2, depr_of_foreign; auto.
    - destruct H0 as [H0 _]. apply H0. destruct js; try congruence; auto.
    - destruct H1 as [H1 _]. apply H1. destruct js; try congruence; auto.
    - split; [auto|]. intros _ w [].
    - split.
      + intros ->. rewrite H2 by discriminate. inversion H0; subst; auto. congruence.
      + intros -> w I. rewrite H2 in I by discriminate. rewrite app_nil_r in I. inversion H0; subst; cbn in I; intuition (subst; auto).
    - rewrite H0, H2; auto.
  Qed.

  Lemma run_warning_pos :
    (forall js P K x ws es, srun js P K x ws es -> js = RootLocal ->
       forall w, In w ws -> exists y, written [x] y /\ warning_pos w = sel_pos y) /\
    (forall js K c p sub ws es, prun js K c p sub ws es -> js = RootLocal ->
       forall w, In w ws -> warning_pos w = p \/ exists y, written sub y /\ warning_pos w = sel_pos y) /\
    (forall js P K l ws es, crun js P K l ws es -> js = RootLocal ->
       forall w, In w ws -> exists y, written l y /\ warning_pos w = sel_pos y).
  Proof.
    assert (D : forall js p f P w, In w (depr_of dep js p f P) -> warning_pos w = p).
    { intros js p f P w. unfold depr_of. destruct (_ && _); intros []; subst; auto. contradiction. }
    apply run_mutind.
    - intros js P K p al n a d sub l H L _ w [].
    - intros js P K p al n a d f F C _ w [].
    - intros js P K p al n a d f x sub F C _ w [].
    - intros js P K p al n a d f F C _ w I. apply D in I. eexists. split; [apply wr_here; left; reflexivity|]. auto.
    - intros js P K p al n a d f x sub ws F C R IH J w I. apply in_app_iff in I. destruct I as [I|I].
      + destruct (IH J w I) as (y & W & E). exists y. split; auto. eapply wr_field; eauto. left; reflexivity.
      + apply D in I. eexists. split; [apply wr_here; left; reflexivity|]. auto.
    - intros js P K p al n a d f x sub ws e es F C R IH J w I.
      destruct (IH J w I) as (y & W & E). exists y. split; auto. eapply wr_field; eauto. left; reflexivity.
    - intros js P K p d sub _ w [].
    - intros js P K p c d sub ws es R IH J w I. subst js. destruct (IH eq_refl w I) as [E|(y & W & E)].
      + eexists. split; [apply wr_here; left; reflexivity|]. auto.
      + exists y. split; auto. eapply wr_inline; eauto. left; reflexivity.
    - intros js P K p n d l E L _ w [].
    - intros js P K p n d fd ws es E R IH J w I. subst js.
      destruct run_warnings_nonlocal as (_ & Hp & _). destruct (Hp _ _ _ _ _ _ _ R) as [_ Hj].
      eexists. split; [apply wr_here; left; reflexivity|]. apply Hj; auto.
    - intros js K c p sub e C B J w [].
    - intros js K c p sub w0 ws es C N R IH J w I. apply in_app_iff in I. destruct I as [I|I].
      + left. inversion N; subst; cbn in I; intuition (subst; auto).
      + right. apply (IH J w I).
    - intros js P K _ w [].
    - intros js P K x l ws es ws' es' R1 IH1 R2 IH2 J w I. apply in_app_iff in I. destruct I as [I|I].
      + destruct (IH1 J w I) as (y & W & E). exists y. split; auto.
        inversion W as [? ? Iy|? ? ? ? ? ? ? ? Iy|? ? ? ? ? ? Iy]; subst; destruct Iy as [Ex|[]]; try subst x;
          [eapply wr_here|eapply wr_field|eapply wr_inline]; eauto; left; auto.
      + destruct (IH2 J w I) as (y & W & E). exists y. split; auto.
        inversion W; subst; [eapply wr_here|eapply wr_field|eapply wr_inline]; eauto; right; eauto.
  Qed.
End Facts.
