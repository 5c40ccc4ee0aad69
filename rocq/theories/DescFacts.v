(** What the declarations of a generated module say about the selections they were made from. *)
From Verif Require Export PlanFacts SpecReg.

Lemma NoDup_app_intro {A} (l m : list A) : NoDup l -> NoDup m -> (forall x, In x l -> ~ In x m) -> NoDup (l ++ m).
Proof.
  induction 1 as [|x l Nx N IH]; intros Nm H; cbn [app]; auto. constructor.
  - intros I. apply in_app_or in I. destruct I as [I|I]; [auto|]. apply (H x (or_introl eq_refl) I).
  - apply IH; auto. intros y I. apply H. right; auto.
Qed.
Lemma NoDup_map_inj {A B} (g : A -> B) l : (forall x y, g x = g y -> x = y) -> NoDup l -> NoDup (List.map g l).
Proof.
  intros H. induction 1 as [|x l Nx N IH]; cbn; constructor; auto.
  intros I. apply in_map_iff in I. destruct I as (y & E & I). apply H in E. congruence.
Qed.

Section Desc.
  Variable c : cconfig.
  Variable s : schema.
  Variable frags : amap string fragdef.
  Notation focc := (focc s frags).

  (** A declared object type with the object types it stands for *)
  Definition group : Type := (string * list string * list member)%type.

  (** How a declared object type is named: like the whole if it is alone, otherwise after its only
      object type, or as the rest *)
  Definition named (main : string) (groups : list group) (g : group) : Prop :=
    groups = [g] /\ fst (fst g) = main \/
    (exists T, snd (fst g) = [T] /\ fst (fst g) = main +++ "_" +++ T) \/ fst (fst g) = main +++ "_$$other".

  Section In_module.
  Variable D : list decl.
  Inductive des : string -> selset -> string -> Prop :=
  | des_intro P (M : selset) main (groups : list group) :
      (exists g, groups = [g] /\ fst (fst g) = main) \/ In (DAlias main (List.map (fun g => fst (fst g)) groups)) D ->
      NoDup (List.map (fun g => fst (fst g)) groups) ->
      (forall T, In T (flat_map (fun g => snd (fst g)) groups) <-> possible s P T) ->
      NoDup (flat_map (fun g => snd (fst g)) groups) ->
      (forall n ts ms, In (n, ts, ms) groups -> In (DObj n ms) D) ->
      (forall n ts ms, In (n, ts, ms) groups -> ts <> []) ->
      (forall g, In g groups -> named main groups g) ->
      (forall n ts ms T, In (n, ts, ms) groups -> In T ts -> mem ts (focc T P M) ms) ->
      des P M main
  with mem : list string -> occset -> list member -> Prop :=
  | mem_intro ts (O : occset) ms :
      NoDup (List.map m_name ms) ->
      (forall m, In m ms -> exists f ss, O (m_name m) f ss) ->
      (forall k f ss, O k f ss -> In k (List.map m_name ms)) ->
      (forall m f ss, In m ms -> O (m_name m) f ss ->
         mty ts (sf_type f) (merged O (m_name m) (ft_name (sf_type f))) (m_type m)) ->
      mem ts O ms
  with mty : list string -> ftype -> selset -> texpr -> Prop :=
  | mty_intro ts ft (M : selset) e0 : bas ts ft M e0 -> mty ts ft M (ptd_expr (ft_rest ft) (ft_mod ft) e0)
  with bas : list string -> ftype -> selset -> texpr -> Prop :=
  | bas_typename ts ft (M : selset) : ft_def ft = FDTypeName -> bas ts ft M (lit_union ts)
  | bas_scalar ts ft (M : selset) sc : ft_def ft = FDScalar sc -> bas ts ft M (XName (scalar_ts c sc))
  | bas_enum ts ft (M : selset) : ft_def ft = FDEnum -> bas ts ft M (XName (ft_name ft))
  | bas_complex ts ft (M : selset) sub : fdef_is_complex (ft_def ft) = true -> composite s (ft_name ft) ->
      des (ft_name ft) M sub -> bas ts ft M (XName sub).
  End In_module.
  Scheme des_mut := Minimality for des Sort Prop
    with mem_mut := Minimality for mem Sort Prop
    with mty_mut := Minimality for mty Sort Prop
    with bas_mut := Minimality for bas Sort Prop.
  Combined Scheme des_mutind from des_mut, mem_mut, mty_mut, bas_mut.

  Lemma des_alike D :
    (forall P M main, des D P M main -> forall M', alike s frags same_type P M M' -> des D P M' main) /\
    (forall ts O ms, mem D ts O ms -> forall O',
       (forall k f ss, O k f ss -> exists f' ss', O' k f' ss' /\ sf_type f = sf_type f') ->
       (forall k f' ss', O' k f' ss' -> exists f ss, O k f ss /\ sf_type f = sf_type f') ->
       (forall k f ss, O k f ss -> composite s (ft_name (sf_type f)) ->
          alike s frags same_type (ft_name (sf_type f)) (merged O k (ft_name (sf_type f))) (merged O' k (ft_name (sf_type f)))) ->
       mem D ts O' ms) /\
    (forall ts ft M e, mty D ts ft M e -> forall M', (composite s (ft_name ft) -> alike s frags same_type (ft_name ft) M M') -> mty D ts ft M' e) /\
    (forall ts ft M e, bas D ts ft M e -> forall M', (composite s (ft_name ft) -> alike s frags same_type (ft_name ft) M M') -> bas D ts ft M' e).
  Proof.
    apply (des_mutind D
      (fun P M main => forall M', alike s frags same_type P M M' -> des D P M' main)
      (fun ts O ms => forall O',
       (forall k f ss, O k f ss -> exists f' ss', O' k f' ss' /\ sf_type f = sf_type f') ->
       (forall k f' ss', O' k f' ss' -> exists f ss, O k f ss /\ sf_type f = sf_type f') ->
       (forall k f ss, O k f ss -> composite s (ft_name (sf_type f)) ->
          alike s frags same_type (ft_name (sf_type f)) (merged O k (ft_name (sf_type f))) (merged O' k (ft_name (sf_type f)))) ->
       mem D ts O' ms)
      (fun ts ft M e => forall M', (composite s (ft_name ft) -> alike s frags same_type (ft_name ft) M M') -> mty D ts ft M' e)
      (fun ts ft M e => forall M', (composite s (ft_name ft) -> alike s frags same_type (ft_name ft) M M') -> bas D ts ft M' e)).
    - intros P M main groups Hm Nn Hp Np Hd Ht Hn _ IH M' A. inversion A as [P0 M0 M0' A1 A2 A3]; subst P0 M0 M0'.
      apply (des_intro D P M' main groups); auto. intros n ts ms T I J.
      assert (Po : possible s P T). { apply Hp. apply in_flat_map. exists (n, ts, ms). auto. }
      apply (IH n ts ms T I J).
      + intros k f ss F. destruct (A1 T k f ss Po F) as (f' & ss' & F' & E). eauto.
      + intros k f ss F. destruct (A2 T k f ss Po F) as (f' & ss' & F' & E). eauto.
      + intros k f ss F C. apply (A3 T k f ss Po F C).
    - intros ts O ms Nd Hf Hk _ IH O' A1 A2 A3. constructor; auto.
      + intros m I. destruct (Hf m I) as (f & ss & F). destruct (A1 _ _ _ F) as (f' & ss' & F' & _). eauto.
      + intros k f ss F. destruct (A2 _ _ _ F) as (f' & ss' & F' & _). eauto.
      + intros m f ss I F. destruct (A2 _ _ _ F) as (f' & ss' & F' & E). rewrite <- E.
        apply (IH m f' ss' I F'). intros C. apply (A3 _ _ _ F' C).
    - intros ts ft M e0 _ IH M' A. constructor. auto.
    - intros ts ft M E M' A. constructor; auto.
    - intros ts ft M sc E M' A. constructor; auto.
    - intros ts ft M E M' A. constructor; auto.
    - intros ts ft M sub E C _ IH M' A. constructor; auto.
  Qed.

  Lemma keys_names T P M fs : fields_ok s frags (focc T P M) fs ->
    forall k, In k (List.map irf_prop fs) <-> key s frags P M T k.
  Proof.
    intros F k. inversion F as [O es So Nd Fo Ty Co]; subst. rewrite map_map. unfold key. split.
    - intros I. apply in_map_iff in I. destruct I as ([[k' f] t] & <- & I). cbn. destruct (Fo _ _ _ I) as (ss & X). eauto.
    - intros (f & ss & X). destruct (Co _ _ _ X) as (f' & t & I & _). apply in_map_iff. exists (k, f', t). auto.
  Qed.
  Lemma shares_spec P M xs x : coll_ok s frags P M xs -> In x xs ->
    (is_shared xs x = true <-> shares s frags P M (irc_name x)).
  Proof.
    intros C I. inversion C as [P0 M0 xs0 So Nd Po Fs]; subst. rewrite is_shared_spec by auto.
    assert (F : forall y, In y xs -> forall k, In k (List.map irf_prop (irc_fields y)) <-> key s frags P M (irc_name y) k).
    { intros [T fs] J. cbn. apply keys_names. auto. }
    unfold shares. split.
    - intros H. split; [apply Po; apply in_map; auto|]. intros k K T' Po'. apply Po in Po'. apply in_map_iff in Po'.
      destruct Po' as (y & <- & J). apply F; auto. apply H; auto. apply F; auto.
    - intros [_ H] n J y Iy. apply F; auto. apply H; [apply F; auto|]. apply Po. apply in_map; auto.
  Qed.

  Lemma Forall2_in_l' {A B} (Q : A -> B -> Prop) l l' : Forall2 Q l l' -> forall x, In x l -> exists y, In y l' /\ Q x y.
  Proof. intros F x I. eapply Forall2_in_l; eauto. Qed.

  Definition proper_types : Prop := forall P T, possible s P T -> T <> "$$other".
  Hypothesis types_ok : proper_types.

  Lemma plan_groups P M xs main : coll_ok s frags P M xs -> xs <> [] ->
    (forall T, In T (flat_map (fun g : planned => snd (fst g)) (plan xs main)) <-> possible s P T) /\
    NoDup (flat_map (fun g : planned => snd (fst g)) (plan xs main)) /\
    NoDup (List.map plan_name (plan xs main)) /\
    (forall T fs ts n, In (IRComplex T fs, ts, n) (plan xs main) -> In T ts /\ In (IRComplex T fs) xs /\
       forall T', In T' ts -> possible s P T' /\ (T = T' \/ shares s frags P M T /\ shares s frags P M T')) /\
    (forall x : planned, In x (plan xs main) -> plan xs main = [x] /\ snd x = main \/
       (exists T, snd (fst x) = [T] /\ snd x = main +++ "_" +++ T) \/ snd x = main +++ "_$$other").
  Proof.
    intros C Ne. pose proof C as C0. inversion C as [P0 M0 xs0 So Nd Po Fs]; subst.
    assert (Nx : forall T fs, In (IRComplex T fs) xs -> T <> "$$other").
    { intros T fs I. apply (types_ok P). apply Po. apply (in_map irc_name) in I. exact I. }
    assert (Sh : forall x, In x xs -> is_shared xs x = true -> shares s frags P M (irc_name x)).
    { intros x I. apply (proj1 (shares_spec P M xs x C0 I)). }
    unfold plan. destruct (own xs) as [|y ys] eqn:Eo.
    - destruct xs as [|x xs]; [congruence|]. cbn [flat_map fst snd List.map plan_name]. rewrite app_nil_r.
      split; [apply Po|]. split; [auto|]. split; [constructor; [intros []|constructor]|].
      split; [|intros y [<-|[]]; left; auto].
      intros T fs ts n [E|[]]. injection E as -> <- <-. split; [left; auto|]. split; [left; auto|].
      intros T' I. change (In T' (List.map irc_name (IRComplex T fs :: xs))) in I.
      split; [apply Po; exact I|]. right. apply in_map_iff in I. destruct I as (z & <- & I).
      pose proof (proj1 (own_nil _) Eo) as A. split; [|apply Sh; auto].
      change T with (irc_name (IRComplex T fs)). apply Sh; [left; auto|apply A; left; auto].
    - rewrite <- Eo. clear Eo y ys.
      assert (F1 : flat_map (fun g : planned => snd (fst g)) (List.map (fun x => (x, [irc_name x], own_name main x)) (own xs)) = List.map irc_name (own xs)).
      { generalize (own xs). induction l as [|z l IH]; cbn; congruence. }
      assert (F2 : flat_map (fun g : planned => snd (fst g)) (match rev (shared xs) with [] => [] | x :: _ => [(x, List.map irc_name (shared xs), other_name main)] end) = List.map irc_name (shared xs)).
      { destruct (rev (shared xs)) as [|z zs] eqn:Er.
        - apply (f_equal (@rev _)) in Er. rewrite rev_involutive in Er. rewrite Er. reflexivity.
        - cbn. apply app_nil_r. }
      unfold planned in *. rewrite flat_map_app, F1, F2, map_app, map_map.
      assert (Ma : forall T, In T (List.map irc_name (own xs) ++ List.map irc_name (shared xs)) <-> In T (List.map irc_name xs)).
      { intros T. rewrite in_app_iff, !in_map_iff. split.
        - intros [(z & <- & I)|(z & <- & I)]; exists z; (split; [auto|]); [apply own_in in I|apply shared_in in I]; tauto.
        - intros (z & <- & I). destruct (is_shared xs z) eqn:E; [right|left]; exists z; (split; [auto|]); [apply shared_in|apply own_in]; auto. }
      split; [intros T; rewrite Ma; apply Po|]. split; [|split; [|split]].
      + apply NoDup_app_intro.
        * apply nodup_map_filter; auto.
        * apply nodup_map_filter; auto.
        * intros T I J. apply in_map_iff in I. apply in_map_iff in J. destruct I as (z & <- & I), J as (w & E & J).
          apply own_in in I. apply shared_in in J. rewrite (map_inj_nodup irc_name xs w z) in J; tauto || (destruct I, J; congruence).
      + apply NoDup_app_intro.
        * cbn [plan_name snd]. rewrite <- (map_map irc_name (fun n => main +++ "_" +++ n)).
          apply NoDup_map_inj; [|apply nodup_map_filter; auto]. intros a b E. apply sapp_inj_l in E. apply sapp_inj_l in E. exact E.
        * destruct (rev (shared xs)); cbn; constructor; try (intros []); constructor.
        * intros n I J. apply in_map_iff in I. destruct I as ([T fs] & <- & I). apply own_in in I.
          destruct (rev (shared xs)); cbn in J; [destruct J|]. destruct J as [J|[]]. cbn [plan_name snd] in J.
          unfold other_name, own_name in J. apply sapp_inj_l in J. change "_$$other" with ("_" +++ "$$other") in J.
          apply sapp_inj_l in J. cbn in J. symmetry in J. revert J. eapply Nx. apply I.
      + intros T fs ts n I. apply in_app_or in I. destruct I as [I|I].
        * apply in_map_iff in I. destruct I as (z & E & I). injection E as -> <- <-. apply own_in in I. cbn.
          split; [auto|]. split; [tauto|]. intros T' [<-|[]]. split; auto. apply Po. change T with (irc_name (IRComplex T fs)). apply in_map. tauto.
        * destruct (rev (shared xs)) as [|z zs] eqn:Er; [destruct I|]. destruct I as [E|[]]. injection E as -> <- <-.
          assert (J : In (IRComplex T fs) (shared xs)) by (apply in_rev; rewrite Er; left; auto).
          split; [change T with (irc_name (IRComplex T fs)); apply in_map; auto|]. apply shared_in in J. split; [tauto|].
          intros T' I. apply in_map_iff in I. destruct I as (w & <- & I). apply shared_in in I. split; [apply Po; apply in_map; tauto|].
          right. split; [change T with (irc_name (IRComplex T fs))|]; apply Sh; tauto.
      + intros x I. right. apply in_app_or in I. destruct I as [I|I].
        * apply in_map_iff in I. destruct I as (z & <- & I). left. exists (irc_name z). auto.
        * destruct (rev (shared xs)) as [|z zs]; [destruct I|]. destruct I as [<-|[]]. right. reflexivity.
  Qed.

  Lemma kind_composite f : kind_agrees s f -> fdef_is_complex (ft_def (sf_type f)) = true -> composite s (ft_name (sf_type f)).
  Proof.
    unfold kind_agrees, composite. destruct (get_type s (ft_name (sf_type f))) as [t|]; cbn [option_map];
      destruct (ft_def (sf_type f)); cbn; try discriminate; intros H _;
      repeat match goal with X : exists _, _ |- _ => destruct X as [? X] end; try discriminate; try contradiction;
      injection H as H; exists t; rewrite H; auto.
  Qed.
  Hypothesis cons_ok : consistent s.

  (** What [regular] says about the occurrences of one object type *)
  Definition reg_occ (O : occset) : Prop :=
    (forall k f ss f' ss', O k f ss -> O k f' ss' -> sf_type f = sf_type f') /\
    (forall k f ss, O k f ss -> composite s (ft_name (sf_type f)) ->
       regular s frags (ft_name (sf_type f)) (merged O k (ft_name (sf_type f)))).
  Lemma regular_occ P M T : regular s frags P M -> possible s P T -> reg_occ (focc T P M).
  Proof.
    intros R Po. inversion R as [P0 M0 R1 R2 R3]; subst. split.
    - intros k f ss f' ss' F F'. eapply R1; eauto.
    - intros k f ss F C. eapply R3; eauto.
  Qed.

  Lemma plan_rep P M xs main : coll_ok s frags P M xs -> regular s frags P M -> forall T fs names path,
    In (IRComplex T fs, names, path) (plan xs main) -> fields_ok s frags (focc T P M) fs /\ reg_occ (focc T P M).
  Proof.
    intros C R T fs names path I.
    assert (Ne : xs <> []). { intros ->. destruct I. }
    destruct (plan_groups P M xs main C Ne) as (_ & _ & _ & H & _). destruct (H _ _ _ _ I) as (_ & J & _).
    inversion C as [P0 M0 xs0 So Nd Po Fs]; subst. split; [auto|]. apply regular_occ; auto. apply Po.
    change T with (irc_name (IRComplex T fs)). apply in_map. auto.
  Qed.
  Lemma assemble D P M xs main gs : coll_ok s frags P M xs -> regular s frags P M -> xs <> [] ->
    Forall2 (fun (x : planned) (g : group) =>
         fst (fst g) = snd x /\ snd (fst g) = snd (fst x) /\ In (DObj (snd x) (snd g)) D /\
         mem D (snd (fst x)) (focc (irc_name (fst (fst x))) P M) (snd g)) (plan xs main) gs ->
    (exists g, gs = [g] /\ fst (fst g) = main) \/ In (DAlias main (List.map (fun g : group => fst (fst g)) gs)) D ->
    des D P M main.
  Proof.
    intros C R Ne G Hd. destruct (plan_groups P M xs main C Ne) as (A1 & A2 & A3 & A4 & A5).
    assert (E1 : List.map (fun g : group => fst (fst g)) gs = List.map plan_name (plan xs main)).
    { clear - G. induction G as [|x g pl gs (E & _) _ IH]; cbn [List.map]; [reflexivity|]. rewrite IH. f_equal. exact E. }
    assert (E2 : flat_map (fun g : group => snd (fst g)) gs = flat_map (fun x : planned => snd (fst x)) (plan xs main)).
    { clear - G. induction G as [|x g pl gs (_ & E & _) _ IH]; cbn [flat_map]; [reflexivity|]. rewrite IH, E. reflexivity. }
    unfold group, planned in *. apply (des_intro D P M main gs).
    - exact Hd.
    - rewrite E1. exact A3.
    - intros T. rewrite E2. apply A1.
    - rewrite E2. exact A2.
    - intros n ts ms I. destruct (Forall2_in_r _ _ _ _ G I) as ([[x ts'] n'] & _ & E & _ & J & _). cbn in E, J. subst. auto.
    - intros n ts ms I. destruct (Forall2_in_r _ _ _ _ G I) as ([[[T fs] ts'] n'] & J & _ & E & _). cbn in E. subst ts'.
      destruct (A4 _ _ _ _ J) as (H & _). intros ->. destruct H.
    - intros g I. destruct (Forall2_in_r _ _ _ _ G I) as (x & J & En & Et & _). unfold named. rewrite En, Et.
      destruct (A5 x J) as [[E5 Em]|E5]; [left|right; exact E5]. split; auto.
      rewrite E5 in G. inversion G as [|? g' ? gs' _ G']; subst. inversion G'; subst. destruct I as [<-|[]]. reflexivity.
    - intros n ts ms T' I J. destruct (Forall2_in_r _ _ _ _ G I) as ([[[T fs] ts'] n'] & K & _ & E & _ & Mm). cbn [fst snd irc_name] in *. subst ts'.
      destruct (A4 _ _ _ _ K) as (_ & _ & H). destruct (H T' J) as (Po & [<- | [S1 S2]]); [exact Mm|].
      inversion R as [P0 M0 R1 R2 R3]; subst.
      destruct (des_alike D) as (_ & X & _). apply (X _ _ _ Mm).
      + intros k f ss F. destruct S1 as [_ S1]. destruct (S1 k (ex_intro _ f (ex_intro _ ss F)) T' Po) as (f' & ss' & F').
        exists f', ss'. split; auto. eapply (R2 T T'); eauto. split; auto. destruct S2; auto. apply (A4 _ _ _ _ K).
        apply (A4 _ _ _ _ K).
      + intros k f' ss' F'. destruct S2 as [S2a S2]. destruct S1 as [S1a S1].
        destruct (S2 k (ex_intro _ f' (ex_intro _ ss' F')) T S1a) as (f & ss & F).
        exists f, ss. split; auto. eapply (R2 T T'); eauto; split; auto.
      + intros k f ss F Cp. destruct S1 as [S1a S1].
        destruct (S1 k (ex_intro _ f (ex_intro _ ss F)) T' Po) as (f' & ss' & F').
        eapply (R2 T T'); eauto. split; auto.
  Qed.

  Lemma rnd_desc :
    (forall names path t ds e us, rnd_type c names path t ds e us -> forall D f M, incl ds D ->
       ty_ok s frags f M t -> kind_agrees s f -> (composite s (ft_name (sf_type f)) -> regular s frags (ft_name (sf_type f)) M) ->
       bas D names (sf_type f) M e) /\
    (forall names path fs ds ms us, rnd_fields c names path fs ds ms us -> forall D O es, fs = List.map mk_irfield es -> incl ds D ->
       (forall k f t, In (k, f, t) es -> kind_agrees s f /\ ty_ok s frags f (merged O k (ft_name (sf_type f))) t /\
          (composite s (ft_name (sf_type f)) -> regular s frags (ft_name (sf_type f)) (merged O k (ft_name (sf_type f))))) ->
       Forall2 (fun e m => m_name m = fst (fst e) /\
          mty D names (sf_type (snd (fst e))) (merged O (fst (fst e)) (ft_name (sf_type (snd (fst e))))) (m_type m)) es ms) /\
    (forall pl ds us, rnd_plan c pl ds us -> forall D P M, incl ds D ->
       (forall T fs names path, In (IRComplex T fs, names, path) pl -> fields_ok s frags (focc T P M) fs /\ reg_occ (focc T P M)) ->
       exists groups, Forall2 (fun (x : planned) (g : group) =>
         fst (fst g) = snd x /\ snd (fst g) = snd (fst x) /\ In (DObj (snd x) (snd g)) D /\
         mem D (snd (fst x)) (focc (irc_name (fst (fst x))) P M) (snd g)) pl groups) /\
    (forall xs main ds us, rnd_coll c xs main ds us -> forall D P M, incl ds D ->
       coll_ok s frags P M xs -> regular s frags P M -> des D P M main).
  Proof.
    apply (rnd_mutind c
      (fun names path t ds e us _ => forall D f M, incl ds D ->
         ty_ok s frags f M t -> kind_agrees s f -> (composite s (ft_name (sf_type f)) -> regular s frags (ft_name (sf_type f)) M) ->
         bas D names (sf_type f) M e)
      (fun names path fs ds ms us _ => forall D O es, fs = List.map mk_irfield es -> incl ds D ->
       (forall k f t, In (k, f, t) es -> kind_agrees s f /\ ty_ok s frags f (merged O k (ft_name (sf_type f))) t /\
          (composite s (ft_name (sf_type f)) -> regular s frags (ft_name (sf_type f)) (merged O k (ft_name (sf_type f))))) ->
       Forall2 (fun e m => m_name m = fst (fst e) /\
          mty D names (sf_type (snd (fst e))) (merged O (fst (fst e)) (ft_name (sf_type (snd (fst e))))) (m_type m)) es ms)
      (fun pl ds us _ => forall D P M, incl ds D ->
       (forall T fs names path, In (IRComplex T fs, names, path) pl -> fields_ok s frags (focc T P M) fs /\ reg_occ (focc T P M)) ->
       exists groups, Forall2 (fun (x : planned) (g : group) =>
         fst (fst g) = snd x /\ snd (fst g) = snd (fst x) /\ In (DObj (snd x) (snd g)) D /\
         mem D (snd (fst x)) (focc (irc_name (fst (fst x))) P M) (snd g)) pl groups)
      (fun xs main ds us _ => forall D P M, incl ds D ->
       coll_ok s frags P M xs -> regular s frags P M -> des D P M main)).
    - intros names path D f M _ Ty _ _. inversion Ty; subst. constructor; auto.
    - intros names path n D f M _ Ty _ _. inversion Ty; subst. constructor; auto.
    - intros names path sc D f M _ Ty _ _. inversion Ty; subst. constructor; auto.
    - intros names path xs ds us _ IH D f M I Ty K R. inversion Ty; subst.
      assert (C : composite s (ft_name (sf_type f))) by (apply kind_composite; auto).
      apply bas_complex; auto.
    - intros names path D O es E _ _. destruct es; [constructor|discriminate].
    - intros names path k d dp l r t fs ds e us ds' ms us' _ IH _ IH' D O es E I H.
      destruct es as [|[[k0 f0] t0] es]; [discriminate|]. cbn [List.map mk_irfield] in E. injection E as -> -> -> -> -> -> E.
      destruct (H _ _ _ (or_introl eq_refl)) as (K & Ty & R). constructor.
      + cbn [fst snd r_member m_name m_type]. split; auto. constructor. apply IH; auto.
        intros x J. apply I. apply in_or_app. auto.
      + apply IH'; auto.
        * intros x J. apply I. apply in_or_app. auto.
        * intros k1 f1 t1 J. apply H. right; auto.
    - intros D P M _ _. exists []. constructor.
    - intros T fs names path pl ds ms us ds' us' _ IH _ IH' D P M I H.
      destruct (H _ _ _ _ (or_introl eq_refl)) as (F & R1 & R2).
      destruct (IH' D P M) as (gs & G); auto.
      { intros x J. apply I. apply in_or_app. auto. } { intros T1 fs1 n1 p1 J. apply H with (1 := or_intror J). }
      exists ((path, names, ms) :: gs). constructor; auto. cbn [fst snd irc_name]. split; auto. split; auto.
      split. { apply I. apply in_or_app. left. apply in_or_app. right. left; auto. }
      inversion F as [O es So Nd Fo Ty Cv]; subst.
      assert (X : Forall2 (fun e m => m_name m = fst (fst e) /\
          mty D names (sf_type (snd (fst e))) (merged (focc T P M) (fst (fst e)) (ft_name (sf_type (snd (fst e))))) (m_type m)) es ms).
      { apply IH; auto.
        - intros x J. apply I. apply in_or_app. left. apply in_or_app. auto.
        - intros k f t J. destruct (Fo _ _ _ J) as (ss & Fk). split; [|split; auto].
          + destruct Fk as (P' & n & _ & Fk). eapply cons_ok; eauto.
          + intros C. eapply R2; eauto. }
      assert (Ek : List.map m_name ms = List.map (fun e => fst (fst e)) es).
      { clear - X. induction X as [|? ? ? ? [H1 _] _ IH]; cbn; congruence. }
      constructor.
      + rewrite Ek. assert (Y : forall e e', In e es -> In e' es -> fst (fst e) = fst (fst e') -> e = e').
        { intros [[k f] t] [[k' f'] t'] J J' E. cbn in E. subst k'.
          destruct (Fo _ _ _ J) as (ss & Fk). destruct (Fo _ _ _ J') as (ss' & Fk').
          refine (map_inj_nodup (fun e : string * sfield * irtype => (fst (fst e), ft_name (sf_type (snd (fst e))))) es _ _ Nd J J' _).
          cbn. rewrite (R1 _ _ _ _ _ Fk Fk'). reflexivity. }
        clear - Nd Y. induction es as [|e es IH]; cbn; constructor.
        * intros J. apply in_map_iff in J. destruct J as (e' & E & J). rewrite (Y e' e) in J; auto; [|right; auto|left; auto].
          inversion Nd as [|? ? Ne _]; subst. apply Ne. apply in_map_iff. eauto.
        * apply IH; [inversion Nd; auto|]. intros a b Ia Ib. apply Y; right; auto.
      + intros m J. destruct (Forall2_in_r _ _ _ _ X J) as ([[k f] t] & J' & E & _). cbn in E. rewrite E. destruct (Fo _ _ _ J') as (ss & Fk). eauto.
      + intros k f ss Fk. rewrite Ek. destruct (Cv _ _ _ Fk) as (f' & t & J & _). apply in_map_iff. exists (k, f', t). auto.
      + intros m f ss J Fk. destruct (Forall2_in_r _ _ _ _ X J) as ([[k f0] t] & J' & E & Mt). cbn [fst snd] in *. rewrite E in *.
        destruct (Fo _ _ _ J') as (ss0 & Fk0). rewrite (R1 _ _ _ _ _ Fk Fk0). exact Mt.
    - intros xs main ds us Ne Ho _ IH D P M I C R. destruct (IH D P M I (plan_rep P M xs main C R)) as (gs & G).
      apply (assemble D P M xs main gs); auto. left. unfold plan in G. rewrite Ho in G. destruct xs as [|x xs]; [congruence|].
      inversion G as [|? g ? gs' (E & _) G']; subst. inversion G'; subst. eauto.
    - intros xs main ds us Ho _ IH D P M I C R. assert (Ne : xs <> []) by (intros ->; apply Ho; reflexivity).
      destruct (IH D P M (fun x J => I x (in_or_app _ _ _ (or_introl J))) (plan_rep P M xs main C R)) as (gs & G).
      apply (assemble D P M xs main gs); auto. right.
      replace (List.map (fun g : group => fst (fst g)) gs) with (List.map plan_name (plan xs main)).
      { apply I. apply in_or_app. right. left. reflexivity. }
      clear - G. induction G as [|x g pl gs (E & _) _ IH]; cbn [List.map]; [reflexivity|]. rewrite IH. f_equal. symmetry. exact E.
  Qed.
End Desc.
