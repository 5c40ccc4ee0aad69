(** C18: no duplicate declarations. *)
From Verif Require Import PathFacts DeclFacts RegCheck ShareWorlds PropC14.

Section Labels.
  Variable s : schema.
  Variable frags : amap string fragdef.

  (** No response key of an object type stands for fields whose types have different names (GraphQL
      forbids such documents), at any depth *)
  Inductive unambiguous : string -> selset -> Prop :=
  | unamb_intro P (M : selset) :
      (forall T k f ss f' ss', possible s P T -> focc s frags T P M k f ss -> focc s frags T P M k f' ss' ->
         ft_name (sf_type f) = ft_name (sf_type f')) ->
      (forall T k f ss, possible s P T -> focc s frags T P M k f ss -> composite s (ft_name (sf_type f)) ->
         unambiguous (ft_name (sf_type f)) (merged (focc s frags T P M) k (ft_name (sf_type f)))) ->
      unambiguous P M.

  (** ... and neither the object types nor the keys of composite fields contain an underscore *)
  Definition no_underscore (x : string) : Prop := ~ has_char "_" x.
  Inductive plain_labels : string -> selset -> Prop :=
  | plain_intro P (M : selset) :
      (forall T, possible s P T -> no_underscore T) ->
      (forall T k f ss, possible s P T -> focc s frags T P M k f ss -> composite s (ft_name (sf_type f)) ->
         no_underscore k) ->
      (forall T k f ss, possible s P T -> focc s frags T P M k f ss -> composite s (ft_name (sf_type f)) ->
         plain_labels (ft_name (sf_type f)) (merged (focc s frags T P M) k (ft_name (sf_type f)))) ->
      plain_labels P M.

  (** More generally: what can follow the name of a place in the names of the declarations at and below it.  A place is named
      itself, its object types are named after it or together as the rest, and its composite fields below any of these *)
  Definition type_part (P T pre : string) : Prop := pre = "" \/ pre = "_" +++ T \/ pre = "_$$other".
  Inductive tail : string -> selset -> string -> Prop :=
  | tail_here P (M : selset) : tail P M ""
  | tail_part P (M : selset) T pre : possible s P T -> type_part P T pre -> tail P M pre
  | tail_field P (M : selset) T k f ss pre r : possible s P T -> type_part P T pre -> focc s frags T P M k f ss ->
      composite s (ft_name (sf_type f)) -> tail (ft_name (sf_type f)) (merged (focc s frags T P M) k (ft_name (sf_type f))) r ->
      tail P M (pre +++ "_" +++ k +++ r).
  (** ... what can follow the name of the object type [T] there *)
  Definition type_tail (P : string) (M : selset) (T r : string) : Prop :=
    r = "" \/ exists k f ss r', focc s frags T P M k f ss /\ composite s (ft_name (sf_type f)) /\
      tail (ft_name (sf_type f)) (merged (focc s frags T P M) k (ft_name (sf_type f))) r' /\ r = "_" +++ k +++ r'.
  (** ... and two names there are equal only if they belong to the same field, and to the same object type or both to the rest *)
  Inductive labels_apart : string -> selset -> Prop :=
  | apart_intro P (M : selset) :
      (forall T k f ss r k' f' ss' r', possible s P T -> focc s frags T P M k f ss -> focc s frags T P M k' f' ss' ->
         composite s (ft_name (sf_type f)) -> composite s (ft_name (sf_type f')) ->
         tail (ft_name (sf_type f)) (merged (focc s frags T P M) k (ft_name (sf_type f))) r ->
         tail (ft_name (sf_type f')) (merged (focc s frags T P M) k' (ft_name (sf_type f'))) r' ->
         k +++ r = k' +++ r' -> k = k') ->
      (forall T T' x x' r r', possible s P T -> possible s P T' -> x = T \/ x = "$$other" -> x' = T' \/ x' = "$$other" ->
         type_tail P M T r -> type_tail P M T' r' -> x +++ r = x' +++ r' -> x = x') ->
      (forall T k f ss, possible s P T -> focc s frags T P M k f ss -> composite s (ft_name (sf_type f)) ->
         labels_apart (ft_name (sf_type f)) (merged (focc s frags T P M) k (ft_name (sf_type f)))) ->
      labels_apart P M.
End Labels.

(** *** Names built from segments *)
Definition under (p n : string) : Prop := exists r, n = p +++ r /\ (r = "" \/ exists r', r = "_" +++ r').
Lemma seg_split k : forall k' r r', no_underscore k -> no_underscore k' ->
  (r = "" \/ exists x, r = "_" +++ x) -> (r' = "" \/ exists x, r' = "_" +++ x) -> k +++ r = k' +++ r' -> k = k'.
Proof.
  unfold no_underscore. induction k as [|a k IH]; intros [|b k'] r r' N N' Hr Hr' E; auto.
  - cbn [append] in E. subst r. destruct Hr as [Hz|(x & Hz)]; [discriminate|]. injection Hz as -> _. exfalso. apply N'. cbn. auto.
  - cbn [append] in E. subst r'. destruct Hr' as [Hz|(x & Hz)]; [discriminate|]. injection Hz as -> _. exfalso. apply N. cbn. auto.
  - injection E as -> E. f_equal. apply (IH k' r r'); auto; intros H; [apply N|apply N']; cbn; auto.
Qed.
Lemma under_seg p k k' n : under (p +++ "_" +++ k) n -> under (p +++ "_" +++ k') n -> no_underscore k -> no_underscore k' -> k = k'.
Proof.
  intros (r & -> & Hr) (r' & E & Hr') N N'. rewrite !sapp_assoc in E. apply sapp_inj_l in E. injection E as E. apply (seg_split k k' r r'); auto.
Qed.
Lemma under_not p k : ~ under (p +++ "_" +++ k) p.
Proof.
  intros (r & E & _). rewrite !sapp_assoc in E. rewrite <- (sapp_nil_r p) in E at 1. apply sapp_inj_l in E. discriminate.
Qed.

Lemma NoDup_app {A} (l l' : list A) : NoDup l -> NoDup l' -> (forall x, In x l -> ~ In x l') -> NoDup (l ++ l').
Proof.
  intros N N' D. induction N as [|x l I N IH]; cbn; auto. constructor.
  - intros J. apply in_app_or in J. destruct J as [J|J]; [contradiction|]. eapply D; [left; reflexivity|exact J].
  - apply IH. intros y J. apply D. right; auto.
Qed.

Section Unique.
  Variable c : cconfig.
  Variable s : schema.
  Variable frags : amap string fragdef.
  Hypothesis cons_ok : consistent s.
  Hypothesis types_ok : proper_types s.
  Notation focc := (focc s frags).

  Definition amb_occ (O : occset) : Prop :=
    (forall k f ss f' ss', O k f ss -> O k f' ss' -> ft_name (sf_type f) = ft_name (sf_type f')) /\
    (forall k f ss, O k f ss -> composite s (ft_name (sf_type f)) -> unambiguous s frags (ft_name (sf_type f)) (merged O k (ft_name (sf_type f)))).
  Definition lab_occ (O : occset) : Prop :=
    (forall k f ss r k' f' ss' r', O k f ss -> O k' f' ss' -> composite s (ft_name (sf_type f)) -> composite s (ft_name (sf_type f')) ->
       tail s frags (ft_name (sf_type f)) (merged O k (ft_name (sf_type f))) r ->
       tail s frags (ft_name (sf_type f')) (merged O k' (ft_name (sf_type f'))) r' -> k +++ r = k' +++ r' -> k = k') /\
    (forall k f ss, O k f ss -> composite s (ft_name (sf_type f)) ->
       labels_apart s frags (ft_name (sf_type f)) (merged O k (ft_name (sf_type f)))).

  Lemma keys_nodup (O : occset) es : amb_occ O ->
    NoDup (List.map (fun e : string * sfield * irtype => (fst (fst e), ft_name (sf_type (snd (fst e))))) es) ->
    (forall k f t, In (k, f, t) es -> exists ss, O k f ss) -> NoDup (List.map (fun e : string * sfield * irtype => fst (fst e)) es).
  Proof.
    intros [A _] N F. induction es as [|[[k f] t] es IH]; [constructor|]. cbn [List.map fst snd] in *. inversion N as [|? ? N1 N2]; subst.
    constructor; [|apply IH; auto; intros; eapply F; right; eauto].
    intros I. apply N1. apply in_map_iff in I. destruct I as ([[k' f'] t'] & E & I). cbn [fst snd] in E. subst k'.
    apply in_map_iff. exists (k, f', t'). split; auto. cbn [fst snd]. f_equal.
    destruct (F k f t) as (ss & X); [left; auto|]. destruct (F k f' t') as (ss' & X'); [right; auto|]. eapply A; eauto.
  Qed.

  Lemma names_of_fields names path fs ds ms us : rnd_fields c names path fs ds ms us -> List.map m_name ms = List.map irf_prop fs.
  Proof. revert ds ms us. induction fs; intros ds ms us R; inversion R; subst; cbn; f_equal; eauto. Qed.
  Lemma props_of_entries es : List.map irf_prop (List.map mk_irfield es) = List.map (fun e => fst (fst e)) es.
  Proof. rewrite map_map. apply map_ext. intros [[k f] t]. reflexivity. Qed.

  Definition entry_fits (O : occset) (x : string * sfield * irtype) : Prop :=
    (exists ss, O (fst (fst x)) (snd (fst x)) ss) /\ kind_agrees s (snd (fst x)) /\
    ty_ok s frags (snd (fst x)) (merged O (fst (fst x)) (ft_name (sf_type (snd (fst x))))) (snd x).
  Lemma entries_fit T P M es : (forall k f t, In (k, f, t) es -> exists ss, focc T P M k f ss) ->
    (forall k f t, In (k, f, t) es -> ty_ok s frags f (merged (focc T P M) k (ft_name (sf_type f))) t) -> Forall (entry_fits (focc T P M)) es.
  Proof.
    intros Fo Ty. apply Forall_forall. intros [[k f] t] J. destruct (Fo _ _ _ J) as (ss & F). split; [eauto|]. split; [|exact (Ty _ _ _ J)].
    destruct F as (P' & n & _ & F). eapply cons_ok. exact F.
  Qed.

  (** Each declared object type lists a property once *)
  Definition props_once (ds : list decl) : Prop := forall n ms, In (DObj n ms) ds -> NoDup (List.map m_name ms).
  Lemma once_app ds ds' : props_once ds -> props_once ds' -> props_once (ds ++ ds').
  Proof. intros A B n ms I. apply in_app_or in I. destruct I; eauto. Qed.

  Lemma rnd_props :
    (forall names path t ds e us, rnd_type c names path t ds e us -> forall f M, ty_ok s frags f M t -> kind_agrees s f ->
       (composite s (ft_name (sf_type f)) -> unambiguous s frags (ft_name (sf_type f)) M) -> props_once ds) /\
    (forall names path fs ds ms us, rnd_fields c names path fs ds ms us -> forall O es, fs = List.map mk_irfield es ->
       Forall (entry_fits O) es -> amb_occ O -> props_once ds) /\
    (forall pl ds us, rnd_plan c pl ds us -> forall P M,
       (forall T fs names path, In (IRComplex T fs, names, path) pl -> fields_ok s frags (focc T P M) fs /\ amb_occ (focc T P M)) -> props_once ds) /\
    (forall xs main ds us, rnd_coll c xs main ds us -> forall P M, coll_ok s frags P M xs -> unambiguous s frags P M -> props_once ds).
  Proof.
    assert (Pl : forall P M xs main ds, coll_ok s frags P M xs -> xs <> [] -> unambiguous s frags P M ->
      ((forall T fs names path, In (IRComplex T fs, names, path) (plan xs main) -> fields_ok s frags (focc T P M) fs /\ amb_occ (focc T P M)) -> props_once ds) ->
      props_once ds).
    { intros P M xs main ds C Ne U IH. apply IH. intros T fs names path J.
      destruct (plan_groups s frags types_ok P M xs main C Ne) as (_ & _ & _ & A4 & _). destruct (A4 _ _ _ _ J) as (K & I & H).
      destruct (H T K) as [Po _]. split; [inversion C; auto|]. inversion U as [P0 M0 U1 U2]; subst. split; eauto. }
    apply (rnd_mutind c
      (fun names path t ds e us _ => forall f M, ty_ok s frags f M t -> kind_agrees s f ->
       (composite s (ft_name (sf_type f)) -> unambiguous s frags (ft_name (sf_type f)) M) -> props_once ds)
      (fun names path fs ds ms us _ => forall O es, fs = List.map mk_irfield es -> Forall (entry_fits O) es -> amb_occ O -> props_once ds)
      (fun pl ds us _ => forall P M, (forall T fs names path, In (IRComplex T fs, names, path) pl ->
         fields_ok s frags (focc T P M) fs /\ amb_occ (focc T P M)) -> props_once ds)
      (fun xs main ds us _ => forall P M, coll_ok s frags P M xs -> unambiguous s frags P M -> props_once ds)).
    - intros names path f M _ _ _ n ms [].
    - intros names path n f M _ _ _ n' ms [].
    - intros names path sc f M _ _ _ n ms [].
    - intros names path xs ds us _ IH f M Ty K U. inversion Ty; subst. eapply IH; eauto. apply U. apply kind_composite; auto.
    - intros names path O es _ _ _ n ms [].
    - intros names path k d dp l r t fs ds e us ds' ms us' _ IH _ IH' O es E F A.
      destruct es as [|[[k0 f0] t0] es]; [discriminate|]. cbn [List.map mk_irfield] in E. injection E as -> -> -> -> -> -> E.
      inversion F as [|? ? [(ss & Fk) [K Ty]] F']; subst. cbn [fst snd] in *. apply once_app; [|eapply IH'; eauto].
      eapply IH; eauto. intros C. eapply (proj2 A); eauto.
    - intros P M _ n ms [].
    - intros T fs names path pl ds ms us ds' us' Rf IH _ IH' P M H. apply once_app; [|apply (IH' P M); intros; eapply H; right; eauto].
      destruct (H _ _ _ _ (or_introl eq_refl)) as [F A]. inversion F as [O es So Nd Fo Ty Cv]; subst. apply once_app.
      + eapply IH; eauto. apply entries_fit; auto.
      + intros n ms' [E|[]]. injection E as <- <-. rewrite (names_of_fields _ _ _ _ _ _ Rf), props_of_entries. eapply keys_nodup; eauto.
    - intros xs main ds us Ne Ho _ IH P M C U. apply (Pl P M xs main ds C Ne U). apply IH.
    - intros xs main ds us Ho _ IH P M C U. assert (Ne : xs <> []) by (intros ->; apply Ho; reflexivity).
      apply once_app; [apply (Pl P M xs main ds C Ne U); apply IH|]. intros n ms [E|[]]. discriminate.
  Qed.

  (** No two declarations have the same name *)
  Definition names_once (ds : list decl) : Prop := NoDup (List.map decl_name ds).
  Lemma names_app ds ds' : names_once ds -> names_once ds' ->
    (forall x y, In x ds -> In y ds' -> decl_name x <> decl_name y) -> names_once (ds ++ ds').
  Proof.
    intros A B D. unfold names_once. rewrite map_app. apply NoDup_app; auto. intros n I J. apply in_map_iff in I. apply in_map_iff in J.
    destruct I as (x & E & I), J as (y & E' & J). apply (D x y I J). congruence.
  Qed.

  (** The names declared below a place *)
  Definition at_field (O : occset) (path n : string) : Prop :=
    exists k f ss r, O k f ss /\ composite s (ft_name (sf_type f)) /\ tail s frags (ft_name (sf_type f)) (merged O k (ft_name (sf_type f))) r /\
      n = path +++ "_" +++ k +++ r.
  Lemma rnd_tails :
    (forall names path t ds e us, rnd_type c names path t ds e us -> forall f M, ty_ok s frags f M t -> kind_agrees s f ->
       forall x, In x ds -> composite s (ft_name (sf_type f)) /\ exists r, tail s frags (ft_name (sf_type f)) M r /\ decl_name x = path +++ r) /\
    (forall names path fs ds ms us, rnd_fields c names path fs ds ms us -> forall O es, fs = List.map mk_irfield es ->
       Forall (entry_fits O) es -> forall x, In x ds -> at_field O path (decl_name x)) /\
    (forall pl ds us, rnd_plan c pl ds us -> forall P M,
       (forall T fs names path, In (IRComplex T fs, names, path) pl -> fields_ok s frags (focc T P M) fs) ->
       forall x, In x ds -> exists T fs names path, In (IRComplex T fs, names, path) pl /\ (decl_name x = path \/ at_field (focc T P M) path (decl_name x))) /\
    (forall xs main ds us, rnd_coll c xs main ds us -> forall P M, coll_ok s frags P M xs ->
       forall x, In x ds -> exists r, tail s frags P M r /\ decl_name x = main +++ r).
  Proof.
    assert (Pl : forall P M xs main ds, coll_ok s frags P M xs -> xs <> [] ->
      ((forall T fs names path, In (IRComplex T fs, names, path) (plan xs main) -> fields_ok s frags (focc T P M) fs) ->
       forall x, In x ds -> exists T fs names path, In (IRComplex T fs, names, path) (plan xs main) /\ (decl_name x = path \/ at_field (focc T P M) path (decl_name x))) ->
      forall x, In x ds -> exists r, tail s frags P M r /\ decl_name x = main +++ r).
    { intros P M xs main ds C Ne IH x I. destruct (plan_groups s frags types_ok P M xs main C Ne) as (A1 & _ & A3 & A4 & A5).
      destruct (IH) with (x := x) as (T & fs & names & path & J & X); auto.
      { intros T fs names path J. destruct (A4 _ _ _ _ J) as (K & J' & H). inversion C; auto. }
      destruct (A4 _ _ _ _ J) as (K & J' & H). destruct (H T K) as [Po _].
      assert (Pp : exists pre, type_part P T pre /\ path = main +++ pre).
      { destruct (A5 _ J) as [[_ E]|[(T' & Et & E)|E]]; cbn [fst snd] in *.
        - exists "". split; [left; reflexivity|]. rewrite sapp_nil_r. exact E.
        - rewrite Et in K. destruct K as [->|[]]. exists ("_" +++ T). split; [right; left; reflexivity|exact E].
        - exists "_$$other". split; [right; right; reflexivity|exact E]. }
      destruct Pp as (pre & Tp & ->). destruct X as [X|(k & f & ss & r & F & Cp & Tr & X)].
      - exists pre. split; [eapply tail_part; eauto|exact X].
      - exists (pre +++ "_" +++ k +++ r). split; [eapply tail_field; eauto|]. rewrite X, !sapp_assoc. reflexivity. }
    apply (rnd_mutind c
      (fun names path t ds e us _ => forall f M, ty_ok s frags f M t -> kind_agrees s f ->
       forall x, In x ds -> composite s (ft_name (sf_type f)) /\ exists r, tail s frags (ft_name (sf_type f)) M r /\ decl_name x = path +++ r)
      (fun names path fs ds ms us _ => forall O es, fs = List.map mk_irfield es ->
       Forall (entry_fits O) es -> forall x, In x ds -> at_field O path (decl_name x))
      (fun pl ds us _ => forall P M,
       (forall T fs names path, In (IRComplex T fs, names, path) pl -> fields_ok s frags (focc T P M) fs) ->
       forall x, In x ds -> exists T fs names path, In (IRComplex T fs, names, path) pl /\ (decl_name x = path \/ at_field (focc T P M) path (decl_name x)))
      (fun xs main ds us _ => forall P M, coll_ok s frags P M xs -> forall x, In x ds -> exists r, tail s frags P M r /\ decl_name x = main +++ r)).
    - intros names path f M _ _ x [].
    - intros names path n f M _ _ x [].
    - intros names path sc f M _ _ x [].
    - intros names path xs ds us _ IH f M Ty K x I. inversion Ty; subst. split; [apply kind_composite; auto|]. eapply IH; eauto.
    - intros names path O es _ _ x [].
    - intros names path k d dp l r t fs ds e us ds' ms us' Rt IH _ IH' O es E F x I.
      destruct es as [|[[k0 f0] t0] es]; [discriminate|]. cbn [List.map mk_irfield] in E. injection E as -> -> -> -> -> -> E.
      inversion F as [|? ? [(ss & Fk) [K Ty]] F']; subst. cbn [fst snd List.map] in *. apply in_app_or in I. destruct I as [I|I]; [|eapply IH'; eauto].
      destruct (IH f0 _ Ty K x I) as (Cp & r & Tr & X). exists k0, f0, ss, r. split; [exact Fk|]. split; [exact Cp|]. split; [exact Tr|].
      rewrite X, !sapp_assoc. reflexivity.
    - intros P M _ x [].
    - intros T fs names path pl ds ms us ds' us' Rf IH _ IH' P M H x I. apply in_app_or in I. destruct I as [I|I].
      + exists T, fs, names, path. split; [left; reflexivity|]. pose proof (H _ _ _ _ (or_introl eq_refl)) as F. inversion F as [O es So Ne Fo Ty Cv]; subst.
        apply in_app_or in I. destruct I as [I|[<-|[]]]; [right|left; reflexivity]. eapply IH; eauto. apply entries_fit; auto.
      + destruct (IH' P M) with (x := x) as (T' & fs' & names' & path' & J & X); auto; [intros; eapply H; right; eauto|].
        exists T', fs', names', path'. split; [right; exact J|exact X].
    - intros xs main ds us Ne Ho _ IH P M C. apply (Pl P M xs main ds C Ne). apply IH.
    - intros xs main ds us Ho _ IH P M C x I. assert (Ne : xs <> []) by (intros ->; apply Ho; reflexivity).
      apply in_app_or in I. destruct I as [I|[<-|[]]]; [apply (Pl P M xs main ds C Ne (IH P M) x I)|].
      exists "". split; [constructor|]. rewrite sapp_nil_r. reflexivity.
  Qed.
  Lemma fields_tails names path es ds ms us O : rnd_fields c names path (List.map mk_irfield es) ds ms us -> Forall (entry_fits O) es ->
    forall x, In x ds -> exists k f t ss r, In (k, f, t) es /\ O k f ss /\ composite s (ft_name (sf_type f)) /\
      tail s frags (ft_name (sf_type f)) (merged O k (ft_name (sf_type f))) r /\ decl_name x = path +++ "_" +++ k +++ r.
  Proof.
    revert ds ms us. induction es as [|[[k0 f0] t0] es IH]; intros ds ms us R F x I; inversion R; subst; [destruct I|].
    inversion F as [|? ? [(ss & Fk) [K Ty]] F']; subst. cbn [fst snd] in *. apply in_app_or in I. destruct I as [I|I].
    - destruct rnd_tails as (Tt & _). match goal with X : rnd_type _ _ _ _ _ _ _ |- _ => destruct (Tt _ _ _ _ _ _ X f0 _ Ty K x I) as (Cp & r & Tr & Ex) end.
      exists k0, f0, t0, ss, r. split; [left; reflexivity|]. split; [exact Fk|]. split; [exact Cp|]. split; [exact Tr|]. rewrite Ex, !sapp_assoc. reflexivity.
    - match goal with X : rnd_fields _ _ _ _ _ _ _ |- _ => destruct (IH _ _ _ X F' x I) as (k & f & t & ss' & r & J & Z) end.
      exists k, f, t, ss', r. split; [right; exact J|exact Z].
  Qed.

  Lemma rnd_once :
    (forall names path t ds e us, rnd_type c names path t ds e us -> forall f M, ty_ok s frags f M t -> kind_agrees s f ->
       (composite s (ft_name (sf_type f)) -> unambiguous s frags (ft_name (sf_type f)) M /\ labels_apart s frags (ft_name (sf_type f)) M) -> names_once ds) /\
    (forall names path fs ds ms us, rnd_fields c names path fs ds ms us -> forall O es, fs = List.map mk_irfield es ->
       Forall (entry_fits O) es -> amb_occ O -> lab_occ O -> NoDup (List.map (fun e : string * sfield * irtype => fst (fst e)) es) -> names_once ds) /\
    (forall pl ds us, rnd_plan c pl ds us -> forall P M,
       (forall T fs names path, In (IRComplex T fs, names, path) pl -> fields_ok s frags (focc T P M) fs /\ amb_occ (focc T P M) /\ lab_occ (focc T P M)) ->
       NoDup (List.map plan_name pl) ->
       (forall T fs names p T' fs' names' q n, In (IRComplex T fs, names, p) pl -> In (IRComplex T' fs', names', q) pl ->
          n = p \/ at_field (focc T P M) p n -> n = q \/ at_field (focc T' P M) q n -> p = q) -> names_once ds) /\
    (forall xs main ds us, rnd_coll c xs main ds us -> forall P M, coll_ok s frags P M xs ->
       unambiguous s frags P M -> labels_apart s frags P M -> names_once ds).
  Proof.
    assert (Below : forall P M T p n, n = p \/ at_field (focc T P M) p n -> exists r, type_tail s frags P M T r /\ n = p +++ r).
    { intros P M T p n [->|(k & f & ss & r & F & Cp & Tr & ->)]; [exists ""; split; [left; reflexivity|rewrite sapp_nil_r; reflexivity]|].
      exists ("_" +++ k +++ r). split; [right; exists k, f, ss, r; auto|reflexivity]. }
    assert (Pl : forall P M xs main ds, coll_ok s frags P M xs -> xs <> [] -> unambiguous s frags P M -> labels_apart s frags P M ->
      ((forall T fs names path, In (IRComplex T fs, names, path) (plan xs main) -> fields_ok s frags (focc T P M) fs /\ amb_occ (focc T P M) /\ lab_occ (focc T P M)) ->
       NoDup (List.map plan_name (plan xs main)) ->
       (forall T fs names p T' fs' names' q n, In (IRComplex T fs, names, p) (plan xs main) -> In (IRComplex T' fs', names', q) (plan xs main) ->
          n = p \/ at_field (focc T P M) p n -> n = q \/ at_field (focc T' P M) q n -> p = q) -> names_once ds) -> names_once ds).
    { intros P M xs main ds C Ne U L IH. destruct (plan_groups s frags types_ok P M xs main C Ne) as (A1 & _ & A3 & A4 & A5). 
      inversion U as [P0 M0 U1 U2]; inversion L as [P1 M1 L1 L2 L3]; subst. apply IH; auto.
      - intros T fs names path J. destruct (A4 _ _ _ _ J) as (K & I & H).
        destruct (H T K) as [Po _]. split; [inversion C; auto|]. split; [split; eauto|]. split.
        + intros k f ss r k' f' ss' r' F F' Cp Cp' Tr Tr'. eapply L1; eauto.
        + intros k f ss F Cp. eapply L3; eauto.
      - intros T fs names p T' fs' names' q n J J' X X'. destruct (A4 _ _ _ _ J) as (K & _ & H). destruct (A4 _ _ _ _ J') as (K' & _ & H').
        destruct (H T K) as [Po _]. destruct (H' T' K') as [Po' _].
        assert (Sg : forall T fs names p, In (IRComplex T fs, names, p) (plan xs main) -> In T names -> plan xs main = [(IRComplex T fs, names, p)] \/
          exists x, (x = T \/ x = "$$other") /\ p = main +++ "_" +++ x).
        { intros T0 fs0 names0 p0 I Kn. destruct (A5 _ I) as [[E _]|[(T1 & Et & En)|En]]; cbn [fst snd] in *.
          - left. exact E.
          - right. exists T1. rewrite Et in Kn. destruct Kn as [->|[]]. auto.
          - right. exists "$$other". auto. }
        destruct (Sg _ _ _ _ J K) as [E|(x & Hx & Ep)]; [rewrite E in J'; destruct J' as [Z|[]]; congruence|].
        destruct (Sg _ _ _ _ J' K') as [E|(x' & Hx' & Ep')]; [rewrite E in J; destruct J as [Z|[]]; congruence|].
        destruct (Below _ _ _ _ _ X) as (r & Tr & En), (Below _ _ _ _ _ X') as (r' & Tr' & En'). rewrite Ep in En. rewrite Ep' in En'. rewrite En in En'.
        rewrite !sapp_assoc in En'. apply sapp_inj_l in En'. cbn [String.append] in En'. injection En' as En'.
        rewrite Ep, Ep', (L2 T T' x x' r r' Po Po' Hx Hx' Tr Tr' En'). reflexivity. }
    apply (rnd_mutind c
      (fun names path t ds e us _ => forall f M, ty_ok s frags f M t -> kind_agrees s f ->
       (composite s (ft_name (sf_type f)) -> unambiguous s frags (ft_name (sf_type f)) M /\ labels_apart s frags (ft_name (sf_type f)) M) -> names_once ds)
      (fun names path fs ds ms us _ => forall O es, fs = List.map mk_irfield es ->
       Forall (entry_fits O) es -> amb_occ O -> lab_occ O -> NoDup (List.map (fun e : string * sfield * irtype => fst (fst e)) es) -> names_once ds)
      (fun pl ds us _ => forall P M,
       (forall T fs names path, In (IRComplex T fs, names, path) pl -> fields_ok s frags (focc T P M) fs /\ amb_occ (focc T P M) /\ lab_occ (focc T P M)) ->
       NoDup (List.map plan_name pl) ->
       (forall T fs names p T' fs' names' q n, In (IRComplex T fs, names, p) pl -> In (IRComplex T' fs', names', q) pl ->
          n = p \/ at_field (focc T P M) p n -> n = q \/ at_field (focc T' P M) q n -> p = q) -> names_once ds)
      (fun xs main ds us _ => forall P M, coll_ok s frags P M xs -> unambiguous s frags P M -> labels_apart s frags P M -> names_once ds)).
    - intros; constructor.
    - intros; constructor.
    - intros; constructor.
    - intros names path xs ds us _ IH f M Ty K U. inversion Ty; subst. destruct U as [U L]; [apply kind_composite; auto|]. eapply IH; eauto.
    - intros names path O es _ _ _ _ _. constructor.
    - intros names path k d dp l r t fs ds e us ds' ms us' Rt IH Rf IH' O es E F A L Nk.
      destruct es as [|[[k0 f0] t0] es]; [discriminate|]. cbn [List.map mk_irfield] in E. injection E as -> -> -> -> -> -> E.
      inversion F as [|? ? [(ss & Fk) [K Ty]] F']; subst. cbn [fst snd List.map] in *. inversion Nk as [|? ? Nk1 Nk2]; subst.
      apply names_app; [|eapply IH'; eauto|].
      + eapply IH; eauto. intros C. split; [eapply (proj2 A); eauto|eapply (proj2 L); eauto].
      + intros x y I J Eq. destruct rnd_tails as (Tt & _). destruct (Tt _ _ _ _ _ _ Rt f0 _ Ty K x I) as (Cp & r0 & Tr & Ex).
        destruct (fields_tails _ _ _ _ _ _ O Rf F' y J) as (k & f & t & ss' & r1 & Ie & Fk' & Cp' & Tr' & Ey). rewrite Ex, Ey in Eq.
        rewrite !sapp_assoc in Eq. apply sapp_inj_l in Eq. cbn [String.append] in Eq. injection Eq as Eq.
        pose proof (proj1 L _ _ _ _ _ _ _ _ Fk Fk' Cp Cp' Tr Tr' Eq) as Z. subst k0. apply Nk1. apply in_map_iff. exists (k, f, t). auto.
    - intros P M _ _ _. constructor.
    - intros T fs names path pl ds ms us ds' us' Rf IH Rp IH' P M H Nd Dj. cbn [List.map plan_name snd] in Nd. inversion Nd as [|? ? Nd1 Nd2]; subst.
      destruct (H _ _ _ _ (or_introl eq_refl)) as (F & A & L). inversion F as [O es So Ne Fo Ty Cv]; subst.
      assert (Ef : Forall (entry_fits (focc T P M)) es) by (apply entries_fit; auto).
      destruct rnd_tails as (_ & Tf & Tp & _).
      apply names_app; [apply names_app| |].
      + eapply IH; eauto. eapply keys_nodup; eauto.
      + repeat constructor; intros [].
      + intros x y I [<-|[]] Eq. cbn [decl_name] in Eq. destruct (Tf _ _ _ _ _ _ Rf (focc T P M) es eq_refl Ef x I) as (k & f & ss & r & _ & _ & _ & Ex).
        rewrite Ex in Eq. rewrite <- (sapp_nil_r path) in Eq at 2. apply sapp_inj_l in Eq. discriminate Eq.
      + eapply IH'; eauto; [intros; eapply H; right; eauto|]. intros T0 fs0 names0 p T' fs' names' q n I I'. apply (Dj T0 fs0 names0 p T' fs' names' q n); right; assumption.
      + intros x y I J Eq. destruct (Tp _ _ _ Rp P M) with (x := y) as (T' & fs' & names' & q & Iq & X); [intros; eapply H; right; eauto|exact J|].
        assert (Ex : decl_name x = path \/ at_field (focc T P M) path (decl_name x)).
        { apply in_app_or in I. destruct I as [I|[<-|[]]]; [right|left; reflexivity]. eapply (Tf _ _ _ _ _ _ Rf); eauto. }
        rewrite Eq in Ex. pose proof (Dj _ _ _ _ _ _ _ _ _ (or_introl eq_refl) (or_intror Iq) Ex X) as Z. subst q.
        apply Nd1. apply in_map_iff. exists (IRComplex T' fs', names', path). auto.
    - intros xs main ds us Ne Ho _ IH P M C U L. apply (Pl P M xs main ds C Ne U L). apply IH.
    - intros xs main ds us Ho Rp IH P M C U L. assert (Ne : xs <> []) by (intros ->; apply Ho; reflexivity).
      apply names_app; [apply (Pl P M xs main ds C Ne U L); apply IH|repeat constructor; intros []|].
      intros x y I [<-|[]] Eq. cbn [decl_name] in Eq. destruct (plan_groups s frags types_ok P M xs main C Ne) as (_ & _ & _ & A4 & A5).
      destruct rnd_tails as (_ & _ & Tp & _). destruct (Tp _ _ _ Rp P M) with (x := x) as (T & fs & names & p & J & X); auto.
      { intros T fs names path J. destruct (A4 _ _ _ _ J) as (_ & J' & _). inversion C; auto. }
      destruct (Below _ _ _ _ _ X) as (r & _ & En). rewrite Eq in En.
      destruct (A5 _ J) as [[E Em]|[(T' & _ & Em)|Em]]; cbn [fst snd] in *.
      + unfold plan in E. destruct (own xs) as [|w ws]; [congruence|]. cbn [List.map app] in E.
        injection E as _ _ Ep _. unfold own_name in Ep. rewrite Em in Ep. rewrite <- (sapp_nil_r main) in Ep at 2. apply sapp_inj_l in Ep. discriminate Ep.
      + rewrite Em, !sapp_assoc in En. rewrite <- (sapp_nil_r main) in En at 1. apply sapp_inj_l in En. discriminate En.
      + rewrite Em, !sapp_assoc in En. rewrite <- (sapp_nil_r main) in En at 1. apply sapp_inj_l in En. discriminate En.
  Qed.
End Unique.

(** The declaration of the variables type *)
Lemma var_decls c s d op vds vus : Forall (fun v => valid_gtype (vgtype v) = true) (doc_vars d) ->
  try_build_variable_ir s (doc_vars d) = Ok (op_variables op) -> r_variables c s op = Ok (vds, vus) ->
  NoDup (List.map vd_name (doc_vars d)) ->
  vds = [] \/ exists ms, vds = [DObj (op_name op +++ "Variables") ms] /\ NoDup (List.map m_name ms).
Proof.
  intros V Ev Rv N. pose proof (C14_accepted s (doc_vars d) V) as Ac. unfold r_variables, try_build_variable_ir in *. destruct (doc_vars d) as [|v vs] eqn:Ed.
  - injection Ev as Ev. rewrite <- Ev in Rv. injection Rv as <- <-. auto.
  - destruct (collect_res (List.map (build_variable s) (v :: vs))) as [r|] eqn:Ec; [|discriminate]. injection Ev as Ev. rewrite <- Ev in Rv.
    destruct (vars_written c s (v :: vs) r V) as (rs & us & E1 & _ & vs' & Pm & _ & F); auto.
    { apply Ac. eauto. }
    rewrite E1 in Rv. injection Rv as <- _. right. eexists. split; [reflexivity|].
    apply (Permutation_map vd_name) in Pm. apply (Permutation_NoDup Pm) in N. clear - N F.
    revert N. generalize dependent (List.map var_member (sort_by (fun x => v_name (fst x)) rs)). intros ms F.
    assert (E : List.map m_name ms = List.map vd_name vs').
    { induction F as [|a b l l' X _ IH]; cbn; f_equal; auto. apply X. }
    rewrite E. auto.
Qed.

Theorem C18_properties : forall fuel cx c o d ws co P l,
  order_ok (cx_order cx) -> order_ok o -> consistent (cx_schema cx) -> proper_types (cx_schema cx) ->
  document_file fuel cx c o d ws co -> doc_root d = Some (P, l) -> is_subscription d = false ->
  frags_valid (cx_schema cx) (cx_frags cx) l -> Forall (fun v => valid_gtype (vgtype v) = true) (doc_vars d) ->
  NoDup (List.map vd_name (doc_vars d)) ->
  unambiguous (cx_schema cx) (cx_frags cx) P (fun x => In x l) ->
  exists m, written_as cx c d co m /\ forall n ms, In (DObj n ms) (tf_decls m) -> NoDup (List.map m_name ms).
Proof.
  intros fuel cx c o d ws co P l O O' Co Pt H Dr Su Fv V Nv U.
  destruct (document_described _ _ _ _ _ _ _ _ _ O O' Co Pt H Dr Su Fv) as (op & ds & us & vds & vus & _ & _ & _ & K & _ & _ & Ev & Rn & Rv & Eg & Et & _).
  exists (file_of c op (ds ++ vds) (co_globals co)). split; auto. cbn [file_of tf_decls].
  intros n ms I. apply in_app_or in I. destruct I as [I|I].
  - destruct (rnd_props c (cx_schema cx) (cx_frags cx) Co Pt) as (_ & _ & _ & X). exact (X _ _ _ _ Rn _ _ K U n ms I).
  - destruct (var_decls c _ d op vds vus V Ev Rv Nv) as [->|(ms' & -> & N)]; [destruct I|]. destruct I as [E|[]]. injection E as _ <-. auto.
Qed.
Print Assumptions C18_properties.

Theorem C18_partial : forall fuel cx c o d ws co P l,
  order_ok (cx_order cx) -> order_ok o -> consistent (cx_schema cx) -> proper_types (cx_schema cx) ->
  document_file fuel cx c o d ws co -> doc_root d = Some (P, l) -> is_subscription d = false ->
  frags_valid (cx_schema cx) (cx_frags cx) l -> Forall (fun v => valid_gtype (vgtype v) = true) (doc_vars d) ->
  NoDup (List.map vd_name (doc_vars d)) ->
  unambiguous (cx_schema cx) (cx_frags cx) P (fun x => In x l) ->
  labels_apart (cx_schema cx) (cx_frags cx) P (fun x => In x l) ->
  exists m, written_as cx c d co m /\ NoDup (List.map decl_name (tf_decls m)) /\
    forall n ms, In (DObj n ms) (tf_decls m) -> NoDup (List.map m_name ms).
Proof.
  intros fuel cx c o d ws co P l O O' Co Pt H Dr Su Fv V Nv U L.
  destruct (document_described _ _ _ _ _ _ _ _ _ O O' Co Pt H Dr Su Fv) as (op & ds & us & vds & vus & _ & _ & _ & K & En & _ & Ev & Rn & Rv & Eg & Et & _).
  exists (file_of c op (ds ++ vds) (co_globals co)). split; auto. cbn [file_of tf_decls].
  pose proof (var_decls c _ d op vds vus V Ev Rv Nv) as Vd.
  destruct (rnd_once c (cx_schema cx) (cx_frags cx) Co Pt) as (_ & _ & _ & X). specialize (X _ _ _ _ Rn _ _ K U L).
  split.
  - apply names_app; auto.
    + destruct Vd as [->|(ms' & -> & N)]; repeat constructor. intros [].
    + intros x y I J E. destruct Vd as [->|(ms' & -> & N)]; [destruct J|]. destruct J as [<-|[]]. cbn [decl_name] in E. rewrite En in E.
      destruct (rnd_coll_names c _ _ _ _ Rn x I) as [Ex|(r & Ex)]; rewrite Ex in E.
      * rewrite <- (sapp_nil_r (def_name d)) in E at 1. apply sapp_inj_l in E. discriminate.
      * apply sapp_inj_l in E. discriminate.
  - intros n ms I. apply in_app_or in I. destruct I as [I|I].
    + destruct (rnd_props c (cx_schema cx) (cx_frags cx) Co Pt) as (_ & _ & _ & Y). exact (Y _ _ _ _ Rn _ _ K U n ms I).
    + destruct Vd as [->|(ms' & -> & N)]; [destruct I|]. destruct I as [E|[]]. injection E as _ <-. auto.
Qed.
Print Assumptions C18_partial.

(** *** When the condition on labels holds: no label is another one, of the same place, with an underscore and more after it *)
Definition extends (a b : string) : Prop := exists x, b = a +++ "_" +++ x.
Inductive labels_free (s : schema) (frags : amap string fragdef) : string -> selset -> Prop :=
| free_intro P (M : selset) :
    (forall T T', possible s P T -> possible s P T' -> ~ extends T T' /\ ~ extends "$$other" T) ->
    (forall T k f ss k' f' ss', possible s P T -> focc s frags T P M k f ss -> focc s frags T P M k' f' ss' ->
       composite s (ft_name (sf_type f)) -> composite s (ft_name (sf_type f')) -> ~ extends k k') ->
    (forall T k f ss, possible s P T -> focc s frags T P M k f ss -> composite s (ft_name (sf_type f)) ->
       labels_free s frags (ft_name (sf_type f)) (merged (focc s frags T P M) k (ft_name (sf_type f)))) ->
    labels_free s frags P M.
Lemma tail_shape s frags P M r : tail s frags P M r -> r = "" \/ exists x, r = "_" +++ x.
Proof.
  assert (X : forall T pre, type_part P T pre -> pre = "" \/ exists x, pre = "_" +++ x).
  { intros T pre [->|[->| ->]]; [left; reflexivity|right; eauto|right; exists "$$other"; reflexivity]. }
  intros H. inversion H as [|? ? T pre Po Tp|? ? T k f ss pre r0 Po Tp]; subst; [left; reflexivity|eapply X; eauto|].
  destruct (X T pre Tp) as [->|(x & ->)]; right; eexists; [reflexivity|]. rewrite sapp_assoc. reflexivity.
Qed.
Lemma free_split k : forall k' r r', ~ extends k k' -> ~ extends k' k ->
  (r = "" \/ exists x, r = "_" +++ x) -> (r' = "" \/ exists x, r' = "_" +++ x) -> k +++ r = k' +++ r' -> k = k'.
Proof.
  induction k as [|a k IH]; intros [|b k'] r r' N N' Hr Hr' E; auto.
  - cbn [append] in E. subst r. destruct Hr as [Hz|(x & Hz)]; [discriminate|]. exfalso. injection Hz as -> Hz. apply N. exists k'. reflexivity.
  - cbn [append] in E. subst r'. destruct Hr' as [Hz|(x & Hz)]; [discriminate|]. exfalso. injection Hz as -> Hz. apply N'. exists k. reflexivity.
  - injection E as -> E. f_equal. apply (IH k' r r'); auto; intros (x & Hx); [apply N|apply N']; exists x; rewrite Hx; reflexivity.
Qed.
Theorem C18_labels : forall s frags P M, labels_free s frags P M -> labels_apart s frags P M.
Proof.
  intros s frags P M H. induction H as [P M L1 L2 L3 IH]. constructor; [| |exact IH].
  - intros T k f ss r k' f' ss' r' Po F F' C C' Tr Tr'. apply free_split; try (eapply L2; eauto); eapply tail_shape; eauto.
  - assert (Sh : forall T r, type_tail s frags P M T r -> r = "" \/ exists x, r = "_" +++ x) by (intros T r [->|(k & f & ss & r' & _ & _ & _ & ->)]; [auto|right; eauto]).
    assert (Ot : forall z, ~ extends z "$$other").
    { intros z (x & E). assert (Y : has_char "_" "$$other"); [|cbn in Y; intuition discriminate].
      rewrite E. clear. induction z as [|a z IHz]; cbn; auto. }
    intros T T' x x' r r' Po Po' Hx Hx' Tr Tr'. apply free_split; eauto.
    + destruct Hx as [->| ->], Hx' as [->| ->]; auto; [apply (L1 T T'); auto|apply (L1 T' T'); auto].
    + destruct Hx as [->| ->], Hx' as [->| ->]; auto; [apply (L1 T' T); auto|apply (L1 T T); auto].
Qed.
Print Assumptions C18_labels.
(** ... in particular if there are no underscores *)
Lemma no_extends a b : no_underscore b -> ~ extends a b.
Proof. intros N (x & ->). apply N. clear. induction a as [|z a IH]; cbn; auto. Qed.
Lemma plain_free s frags P M : plain_labels s frags P M -> labels_free s frags P M.
Proof.
  induction 1 as [P M L1 L2 _ IH]. constructor; [| |exact IH].
  - intros T T' Po Po'. split; apply no_extends; auto.
  - intros T k f ss k' f' ss' Po F F' C C'. apply no_extends. eapply L2; eauto.
Qed.
Lemma plain_apart s frags P M : plain_labels s frags P M -> labels_apart s frags P M.
Proof. intros H. apply C18_labels. apply plain_free. exact H. Qed.

(** *** No underscore in the names of object types, nor in the
    fields and aliases written in the document and the fragments *)
Inductive clean : selection -> Prop :=
| clean_field p al n a d sub : (n = "__typename" \/ no_underscore (response_key al n)) -> Forall clean sub -> clean (SField p al n a d sub)
| clean_inline p c d sub : Forall clean sub -> clean (SInline p c d sub)
| clean_spread p n d : clean (SSpread p n d).

Section Clean.
  Variable s : schema.
  Variable frags : amap string fragdef.
  Hypothesis types_clean : forall P T, possible s P T -> no_underscore T.
  Hypothesis frags_clean : forall n fd, aget n frags = Some fd -> Forall clean (fr_sels fd).

  Hypothesis typename_leaf : forall P f, field_of s P "__typename" f -> ~ composite s (ft_name (sf_type f)).

  Lemma occ_clean T P M k P' n ss : occ s frags T P M k P' n ss -> (forall x, M x -> clean x) ->
    (n = "__typename" \/ no_underscore k) /\ Forall clean ss.
  Proof.
    induction 1 as [P M p al n a d sub I|P M p c d sub k P' n ss I Po _ IH|P M p name d fd k P' n ss I A Po _ IH]; intros C.
    - pose proof (C _ I) as X. inversion X; subst. auto.
    - pose proof (C _ I) as X. inversion X; subst. apply IH. apply Forall_forall. auto.
    - apply IH. apply Forall_forall. eapply frags_clean; eauto.
  Qed.
  Inductive well_nested : string -> selset -> Prop :=
  | nested P (M : selset) :
      (forall T k f ss, possible s P T -> focc s frags T P M k f ss -> composite s (ft_name (sf_type f)) ->
         well_nested (ft_name (sf_type f)) (merged (focc s frags T P M) k (ft_name (sf_type f)))) -> well_nested P M.
  Lemma regular_nested P M : regular s frags P M -> well_nested P M.
  Proof. induction 1 as [P M R1 R2 R3 IH]. constructor. eauto. Qed.
  Lemma clean_labels P M : well_nested P M -> (forall x, M x -> clean x) -> plain_labels s frags P M.
  Proof.
    induction 1 as [P M R IH]; intros C. constructor.
    - intros T Po. eapply types_clean; eauto.
    - intros T k f ss Po F Cp.
      destruct F as (P' & n & F & Ff). destruct (occ_clean _ _ _ _ _ _ _ F C) as [[->|U] _]; auto. exfalso. eapply typename_leaf; eauto.
    - intros T k f ss Po F Cp. apply (IH T k f ss Po F Cp). intros x (f' & ss' & F' & _ & I). destruct F' as (P' & n & F' & _).
        apply occ_clean in F'; auto. destruct F' as [_ F']. rewrite Forall_forall in F'. auto.
  Qed.
  Lemma regular_unambiguous P M : regular s frags P M -> unambiguous s frags P M.
  Proof.
    induction 1 as [P M R1 R2 R3 IH]. constructor; eauto. intros T k f ss f' ss' Po F F'. f_equal. eapply R1; eauto.
  Qed.
End Clean.

(** The example of a regular document: nothing is declared twice *)
Lemma farm_types_plain P T : possible farm P T -> no_underscore T.
Proof.
  intros Po. apply possibles_ok in Po. unfold possibles in Po. destruct (get_type farm P) as [t|] eqn:G; [|destruct Po].
  apply aget_In in G. unfold no_underscore. revert Po. vm_compute in G.
  repeat (destruct G as [G|G]; [injection G as <- <-; cbn; intuition (subst; cbn in *; intuition discriminate)|]). destruct G.
Qed.
Lemma farm_typename P f : field_of farm P "__typename" f -> ~ composite farm (ft_name (sf_type f)).
Proof.
  intros (t & G & F) C. apply compositeb_ok in C. apply aget_In in G. vm_compute in G.
  repeat (destruct G as [G|G]; [injection G as <- <-; vm_compute in F; try contradiction; injection F as <-; discriminate C|]). destruct G.
Qed.
Lemma good_labels : labels_apart farm [("PetName", pet_name)] "Query" (fun x => In x good_sels).
Proof.
  apply plain_apart. apply (clean_labels farm [("PetName", pet_name)] farm_types_plain); [|exact farm_typename|apply regular_nested; exact good_regular|].
  - intros n fd E. cbn [aget] in E. destruct (eqb n "PetName"); [|discriminate]. injection E as <-.
    repeat (constructor; try (right; unfold no_underscore; cbn; intuition discriminate)).
  - apply Forall_forall. unfold good_sels, node, leaf, on, spread.
    repeat (constructor; try (left; reflexivity); try (right; unfold no_underscore; cbn; intuition discriminate)).
Qed.
Example C18_nonvacuous : exists ws co m, document_file 20 (farm_cx [pet_name]) plain_config plain_order (query good_sels) ws co /\
  reads_as co m /\ NoDup (List.map decl_name (tf_decls m)) /\
  forall n ms, In (DObj n ms) (tf_decls m) -> NoDup (List.map m_name ms).
Proof.
  destruct good_compiles as (ws & co & H & _). exists ws, co.
  destruct (C18_partial 20 (farm_cx [pet_name]) plain_config plain_order (query good_sels) ws co "Query" good_sels
    plain_ok plain_ok farm_consistent farm_proper H eq_refl eq_refl good_frags ltac:(constructor) ltac:(constructor)
    (regular_unambiguous _ _ _ _ good_regular) good_labels) as (m & E & N). exists m. split; auto. split; [exact (good_reads _ _ E)|auto].
Qed.

(** Labels with underscores that are kept apart *)
Section FreeCheck.
  Variable s : schema.
  Variable frags : amap string fragdef.
  Definition extendsb (a b : string) : bool := String.prefix (a +++ "_") b.
  Lemma extendsb_ok a b : extendsb a b = false -> ~ extends a b.
  Proof.
    intros H (x & ->). unfold extendsb in H. revert H. induction a as [|c a IH]; cbn.
    - destruct x; discriminate.
    - destruct (Ascii.ascii_dec c c); [exact IH|congruence].
  Qed.
  Fixpoint freeb (n : nat) (P : string) (l : list selection) : bool :=
    match n with
    | O => false
    | S n' =>
        match all_occs s frags n P l with
        | None => false
        | Some r =>
            forallb (fun T => negb (extendsb "$$other" T) && forallb (fun T' => negb (extendsb T T')) (possibles s P)) (possibles s P) &&
            forallb (fun x : string * list occurrence => forallb (fun o : occurrence => negb (compositeb' s (snd (fst o))) ||
              forallb (fun o' : occurrence => negb (compositeb' s (snd (fst o'))) || negb (extendsb (fst (fst o)) (fst (fst o')))) (snd x) &&
              freeb n' (ft_name (sf_type (snd (fst o)))) (merge (snd x) (fst (fst o)) (ft_name (sf_type (snd (fst o)))))) (snd x)) r
        end
    end.
  Lemma freeb_ok n : forall P l (M : selset), freeb n P l = true -> (forall x, M x <-> In x l) -> labels_free s frags P M.
  Proof.
    induction n as [|n IH]; intros P l M H HM; [discriminate|]. cbn [freeb] in H.
    destruct (all_occs s frags (S n) P l) as [r|] eqn:Er; [|discriminate].
    destruct (all_occs_ok _ _ _ _ _ _ Er) as [A B]. apply andb_true_iff in H. destruct H as [H1 H]. rewrite forallb_forall in H1, H.
    assert (X : forall T, possible s P T -> exists os, In (T, os) r /\ forall k f ss, In (k, f, ss) os <-> focc s frags T P M k f ss).
    { intros T Po. destruct (A T Po) as (os & I). exists os. split; auto. intros k f ss. rewrite (proj2 (B T os I)).
      split; apply focc_ext; intros x; rewrite HM; tauto. }
    constructor.
    - intros T T' Po Po'. apply possibles_ok in Po, Po'. specialize (H1 T Po). apply andb_true_iff in H1. destruct H1 as [H0 H1].
      rewrite forallb_forall in H1. specialize (H1 T' Po'). apply negb_true_iff in H0, H1. split; apply extendsb_ok; assumption.
    - intros T k f ss k' f' ss' Po F F' C C'. destruct (X T Po) as (os & I & Eo). specialize (H _ I). cbn [snd] in H. rewrite forallb_forall in H.
      apply Eo in F, F'. specialize (H _ F). cbn [fst snd] in H. unfold compositeb' in H. rewrite (proj2 (compositeb_ok _ _) C) in H. cbn [negb orb] in H.
      apply andb_true_iff in H. destruct H as [H _]. rewrite forallb_forall in H. specialize (H _ F'). cbn [fst snd] in H.
      rewrite (proj2 (compositeb_ok _ _) C') in H. cbn [negb orb] in H. apply negb_true_iff in H. apply extendsb_ok. exact H.
    - intros T k f ss Po F C. destruct (X T Po) as (os & I & Eo). specialize (H _ I). cbn [snd] in H. rewrite forallb_forall in H.
      apply Eo in F. specialize (H _ F). cbn [fst snd] in H. unfold compositeb' in H. rewrite (proj2 (compositeb_ok _ _) C) in H. cbn [negb orb] in H.
      apply andb_true_iff in H. destruct H as [_ H]. eapply IH; [exact H|]. intros x. symmetry. apply merge_ok. auto.
  Qed.
End FreeCheck.
Definition under_sels : list selection :=
  [SField (at_pos 2 3) (Some "my_pet") "pet" [] [] [on 3 "Dog" [SField (at_pos 3 9) (Some "my_owner") "owner" [] [] [leaf 4 "name"]]];
   SField (at_pos 5 3) (Some "his_pet") "pet" [] [] [leaf 6 "name"]].
Lemma plain_key s frags P M : plain_labels s frags P M -> forall T k f ss, possible s P T -> focc s frags T P M k f ss ->
  composite s (ft_name (sf_type f)) -> no_underscore k.
Proof. intros H. destruct H. assumption. Qed.
Example C18_labels_nonvacuous : labels_apart farm [] "Query" (fun x => In x under_sels) /\ ~ plain_labels farm [] "Query" (fun x => In x under_sels) /\
  unambiguous farm [] "Query" (fun x => In x under_sels).
Proof.
  split; [apply C18_labels, (freeb_ok farm [] 12 "Query" under_sels); [vm_compute; reflexivity|tauto]|].
  split; [|apply regular_unambiguous; apply (regularb_ok farm [] 12 "Query" under_sels); [vm_compute; reflexivity|tauto]].
  intros H. pose proof (plain_key _ _ _ _ H) as L.
  assert (F : exists f ss, focc farm [] "Query" "Query" (fun x => In x under_sels) "my_pet" f ss /\ composite farm (ft_name (sf_type f))).
  { destruct (field_get farm "Query" "pet") as [f|] eqn:E; [|vm_compute in E; discriminate E]. exists f.
    eexists. split; [exists "Query", "pet"; split; [eapply occ_field with (al := Some "my_pet"); left; reflexivity|apply field_get_ok; exact E]|].
    apply compositeb_ok. vm_compute in E. injection E as <-. vm_compute. reflexivity. }
  destruct F as (f & ss & F & C). apply (L "Query" "my_pet" f ss) in C; [|apply possibles_ok; vm_compute; auto|exact F].
  apply C. cbn. tauto.
Qed.

(** A document whose type names run together: the type of [owner] in [x] and the type of [x_owner] *)
Definition clash_sels : list selection :=
  [SField (at_pos 2 3) (Some "x") "pet" [] [] [on 3 "Dog" [node 3 "owner" [leaf 3 "name"]]; on 4 "Cat" [node 4 "owner" [leaf 4 "name"]];
      on 5 "Eel" [node 5 "owner" [leaf 5 "name"]]];
   SField (at_pos 6 3) (Some "x_owner") "pet" [] [] [leaf 6 "name"]].
Definition clash_module : tsfile :=
  {| tf_node := "QueryDocumentNode"; tf_node_from := cc_docnode_module plain_config; tf_globals := [];
     tf_globals_from := cc_globals_module plain_config;
     tf_decls := [DObj "Q_x_owner" [prop "name" (XName "string")]; DObj "Q_x" [prop "owner" (XName "Q_x_owner")];
                  DObj "Q_x_owner" [prop "name" (XName "string")];
                  DObj "Q" [prop "x" (XName "Q_x"); prop "x_owner" (XName "Q_x_owner")]];
     tf_args := ["Q"; "never"] |}.
(** A document that asks for two fields of different types under one key *)
Definition twice_sels : list selection :=
  [node 2 "pet" [on 3 "Dog" [node 3 "owner" [SField (at_pos 3 9) (Some "x") "name" [] [] []; SField (at_pos 4 9) (Some "x") "mood" [] [] []]]]].
Definition twice_module : tsfile :=
  {| tf_node := "QueryDocumentNode"; tf_node_from := cc_docnode_module plain_config; tf_globals := ["Mood"];
     tf_globals_from := cc_globals_module plain_config;
     tf_decls := [DObj "Q_pet_Dog_owner" [prop "x" (XName "string"); prop "x" (XName "Mood")];
                  DObj "Q_pet_Dog" [prop "owner" (XName "Q_pet_Dog_owner")]; DObj "Q_pet_$$other" [];
                  DAlias "Q_pet" ["Q_pet_Dog"; "Q_pet_$$other"];
                  DObj "Q" [prop "pet" (XName "Q_pet")]];
     tf_args := ["Q"; "never"] |}.

(** Without the condition on labels: a valid, unambiguous document whose output declares Q_x_owner twice *)
Theorem C18_refuted : exists ws co,
  document_file 20 (farm_cx []) plain_config plain_order (query clash_sels) ws co /\
  valid_sels farm [] "Query" clash_sels /\ unambiguous farm [] "Query" (fun x => In x clash_sels) /\
  reads_as co clash_module /\ ~ NoDup (List.map decl_name (tf_decls clash_module)).
Proof.
  do 2 eexists. split; [eexists; split; vm_compute; reflexivity|]. split; [apply (validb_ok farm [] 9); vm_compute; reflexivity|].
  split; [apply regular_unambiguous; apply (regularb_ok farm [] 12 "Query" clash_sels); [vm_compute; reflexivity|tauto]|].
  split; [apply (reads_by 2000); vm_compute; reflexivity|]. cbn. intros N. inversion N as [|x l I _]; subst. apply I. cbn. auto.
Qed.
Print Assumptions C18_refuted.

Inductive sel_depth : nat -> selection -> Prop :=
| depth_field n p al f a d sub : Forall (sel_depth n) sub -> sel_depth (S n) (SField p al f a d sub)
| depth_inline n p c d sub : Forall (sel_depth (S n)) sub -> sel_depth (S n) (SInline p c d sub).
Lemma depth_nested s n : forall P (M : selset), (forall x, M x -> sel_depth n x) -> well_nested s [] P M.
Proof.
  assert (X : forall T P M k P' m ss, occ s [] T P M k P' m ss -> forall n, (forall x, M x -> sel_depth n x) -> exists n', n = S n' /\ Forall (sel_depth n') ss).
  { induction 1 as [P M p al f a d sub I|P M p c d sub k P' f ss I Po _ IH|P M p name d fd k P' f ss I A Po _ IH]; intros m C.
    - pose proof (C _ I) as X. inversion X; subst. eauto.
    - pose proof (C _ I) as X. inversion X; subst. apply IH. apply Forall_forall. auto.
    - discriminate. }
  induction n as [|n IH]; intros P M C; constructor; intros T k f ss Po F Cp.
  - destruct F as (P' & m & F & _). destruct (X _ _ _ _ _ _ _ F _ C) as (n' & E & _). discriminate.
  - apply IH. intros x (f' & ss' & F' & _ & I). destruct F' as (P' & m & F' & _). destruct (X _ _ _ _ _ _ _ F' _ C) as (n' & E & K).
    injection E as <-. rewrite Forall_forall in K. auto.
Qed.

(** Without the other: an accepted document whose output lists the property x twice in one type *)
Theorem C18_refuted_property : exists ws co ms,
  document_file 20 (farm_cx []) plain_config plain_order (query twice_sels) ws co /\
  plain_labels farm [] "Query" (fun x => In x twice_sels) /\
  reads_as co twice_module /\ In (DObj "Q_pet_Dog_owner" ms) (tf_decls twice_module) /\ ~ NoDup (List.map m_name ms).
Proof.
  do 3 eexists. split; [eexists; split; vm_compute; reflexivity|]. split.
  - apply clean_labels; [exact farm_types_plain|discriminate|exact farm_typename|apply (depth_nested farm 4)|]; apply Forall_forall.
    + repeat constructor.
    + repeat (constructor; try (right; unfold no_underscore; cbn; intuition discriminate)).
  - split; [apply (reads_by 2000); vm_compute; reflexivity|]. split; [left; reflexivity|]. intros N. inversion N as [|x l I _]; subst. apply I. cbn. auto.
Qed.
Print Assumptions C18_refuted_property.
