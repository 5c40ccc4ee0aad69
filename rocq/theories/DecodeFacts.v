(** Lemmas about JSON decoding. *)
From Verif Require Export SpecJson.

Definition decodes {A} (d : json -> option A) (says : json -> A -> Prop) : Prop := forall j a, d j = Some a <-> says j a.

Lemma once_none {A} k (l : list (string * A)) : once k l = Some None <-> ~ In k (List.map fst l).
Proof.
  induction l as [|[k' v] l IH]; cbn; [tauto|]. destruct (String.eqb_spec k' k) as [->|N].
  - split; [|intros X; exfalso; auto]. destruct (once k l) as [[?|]|]; discriminate.
  - rewrite IH. firstorder.
Qed.
Lemma once_some {A} k (l : list (string * A)) v : once k l = Some (Some v) <->
  exists pre suf, l = pre ++ (k, v) :: suf /\ ~ In k (List.map fst pre) /\ ~ In k (List.map fst suf).
Proof.
  induction l as [|[k' v'] l IH]; cbn.
  - split; [discriminate|]. intros ([|] & ? & E & _); discriminate.
  - destruct (String.eqb_spec k' k) as [->|N].
    + destruct (once k l) as [[w|]|] eqn:E.
      * split; [discriminate|]. intros (pre & suf & El & N1 & N2). exfalso. destruct pre as [|[a b] pre].
        -- injection El as -> ->. apply once_none in N2. congruence.
        -- injection El as -> -> El. apply N1. left. reflexivity.
      * split.
        -- intros H. injection H as ->. apply once_none in E. exists [], l. auto.
        -- intros (pre & suf & El & N1 & N2). destruct pre as [|[a b] pre].
           ++ injection El as -> ->. reflexivity.
           ++ injection El as -> -> El. exfalso. apply N1. left. reflexivity.
      * split; [discriminate|]. intros (pre & suf & El & N1 & N2). exfalso. destruct pre as [|[a b] pre].
        -- injection El as -> ->. apply once_none in N2. congruence.
        -- injection El as -> -> El. apply N1. left. reflexivity.
    + rewrite IH. split.
      * intros (pre & suf & -> & N1 & N2). exists ((k', v') :: pre), suf. split; [reflexivity|]. split; [|exact N2].
        cbn. intros [X|X]; auto.
      * intros (pre & suf & El & N1 & N2). destruct pre as [|[a b] pre].
        -- injection El as -> ->. contradiction.
        -- injection El as -> -> El. exists pre, suf. split; [exact El|]. split; [|exact N2]. intros X. apply N1. right. exact X.
Qed.

Lemma once_combine keys : NoDup keys -> forall (vs : list json) get, List.length vs = List.length keys ->
  ((forall k, In k keys -> once k (combine keys vs) = Some (get k)) <-> List.map get keys = List.map Some vs).
Proof.
  induction 1 as [|k keys N ND IH]; intros vs get L; destruct vs as [|v vs]; try discriminate L; cbn [combine List.map once].
  - split; [reflexivity|]. intros _ k [].
  - injection L as L.
    assert (K : once k (combine keys vs) = Some None).
    { apply once_none. intros X. apply in_map_iff in X. destruct X as ([a b] & E & X). cbn in E. subst a. apply in_combine_l in X. auto. }
    assert (R : (forall k', In k' keys -> (if String.eqb k k' then match once k' (combine keys vs) with Some None => Some (Some v) | _ => None end
                              else once k' (combine keys vs)) = Some (get k')) <-> (forall k', In k' keys -> once k' (combine keys vs) = Some (get k'))).
    { split; intros H k' I; specialize (H k' I); destruct (String.eqb_spec k k') as [->|]; try contradiction; auto. }
    split.
    + intros H. f_equal.
      * specialize (H k (or_introl eq_refl)). rewrite String.eqb_refl, K in H. congruence.
      * apply IH; [exact L|]. apply R. intros k' I. apply H. right. exact I.
    + intros E. injection E as E1 E2. intros k' [<-|I].
      * rewrite String.eqb_refl, K, E1. reflexivity.
      * apply R; [|exact I]. apply IH; auto.
Qed.

Lemma holds_entries keys j get : NoDup keys ->
  (holds keys j get <-> exists l, entries keys j = Some l /\ forall k, In k keys -> once k l = Some (get k)).
Proof.
  intros ND. split.
  - intros H. destruct H as [l get H|vs get H].
    + exists l. split; [reflexivity|]. intros k I. destruct (H k I) as [(-> & N)|(v & pre & suf & -> & E & N1 & N2)].
      * apply once_none. exact N.
      * apply once_some. eauto.
    + assert (L : List.length vs = List.length keys).
      { apply (f_equal (@List.length _)) in H. rewrite !map_length in H. auto. }
      exists (combine keys vs). split; [|apply once_combine; auto]. cbn. rewrite L, Nat.eqb_refl. reflexivity.
  - intros (l & E & H). destruct j as [| | | | |vs|l'|]; try discriminate E.
    + cbn in E. destruct (Nat.eqb_spec (List.length vs) (List.length keys)) as [L|]; [|discriminate]. injection E as <-.
      constructor. apply once_combine; auto.
    + injection E as ->. constructor. intros k I. specialize (H k I). destruct (get k) as [v|].
      * apply once_some in H. destruct H as (pre & suf & H). right. exists v, pre, suf. tauto.
      * left. split; [reflexivity|]. apply once_none. exact H.
Qed.

Lemma str_decodes : decodes d_str says_str.
Proof. intros j a. split; [destruct j; try discriminate; intros H; injection H as ->; constructor|intros []; reflexivity]. Qed.
Lemma bool_decodes : decodes d_bool says_bool.
Proof. intros j a. split; [destruct j; try discriminate; intros H; injection H as ->; constructor|intros []; reflexivity]. Qed.
Lemma nat_decodes : decodes d_nat says_nat.
Proof. intros j a. split; [destruct j; try discriminate; intros H; injection H as ->; constructor|intros []; reflexivity]. Qed.
Lemma list_decodes {A} (d : json -> option A) says : decodes d says -> decodes (d_list d) (says_list says).
Proof.
  intros D j a. assert (X : forall l r, d_all d l = Some r <-> Forall2 says l r).
  { induction l as [|x l IH]; intros r; cbn.
    - split; [intros H; injection H as <-; constructor|intros H; inversion H; reflexivity].
    - split.
      + destruct (d x) as [y|] eqn:Ex; [|discriminate]. destruct (d_all d l) as [r'|] eqn:El; [|discriminate].
        intros H; injection H as <-. constructor; [apply D; exact Ex|apply IH; reflexivity].
      + intros H. inversion H as [|? y ? r' H1 H2]; subst. apply D in H1. apply IH in H2. rewrite H1, H2. reflexivity. }
  split.
  - destruct j; try discriminate. cbn. intros H. constructor. apply X. exact H.
  - intros [l r H]. cbn. apply X. exact H.
Qed.

(** Fields, given what is at their key *)
Lemma req_there {A} (d : json -> option A) says : decodes d says -> forall k l o a,
  once k l = Some o -> (req d k l = Some a <-> there says o a).
Proof.
  intros D k l o a E. unfold req. rewrite E. destruct o as [v|].
  - split; [intros H; constructor; apply D; exact H|intros H; inversion H; subst; apply D; auto].
  - split; [discriminate|intros H; inversion H].
Qed.
Lemma opt_maybe {A} (d : json -> option A) says : decodes d says -> forall k l o a,
  once k l = Some o -> (opt d k l = Some a <-> maybe says o a).
Proof.
  intros D k l o a E. unfold opt. rewrite E. destruct o as [v|].
  - assert (X : forall v, v <> JNull -> (option_map Some (d v) = Some a <-> maybe says (Some v) a)).
    { intros w N. split.
      - destruct (d w) as [x|] eqn:Ew; [|discriminate]. intros H; injection H as <-. constructor; [exact N|apply D; exact Ew].
      - intros H. inversion H; subst; [contradiction|]. replace (d w) with (Some a0); [reflexivity|]. symmetry. apply D. auto. }
    destruct v; try (apply X; discriminate). cbn. split.
    + intros H; injection H as <-. constructor.
    + intros H. inversion H; [reflexivity|]. subst. congruence.
  - split; [intros H; injection H as <-; constructor|intros H; inversion H; reflexivity].
Qed.
Lemma req_once {A} (d : json -> option A) k l a : req d k l = Some a -> exists v, once k l = Some (Some v).
Proof. unfold req. destruct (once k l) as [[v|]|]; try discriminate. eauto. Qed.
Lemma opt_once {A} (d : json -> option A) k l a : opt d k l = Some a -> exists o, once k l = Some o.
Proof. unfold opt. destruct (once k l) as [o|]; try discriminate. eauto. Qed.

(** One step of reading a type reference *)
Lemma d_type_eq j : d_type j =
  match entries type_keys j with
  | None => None
  | Some l => match req d_str "kind" l, opt d_str "name" l, opt d_type "ofType" l with
              | Some k, Some n, Some o => Some (JT k n o)
              | _, _, _ => None
              end
  end.
Proof.
  assert (X : forall l sub, (forall o, once "ofType" l = Some o -> once "ofType" sub = Some (option_map (fun v => (v, d_type v)) o)) ->
    (once "ofType" l = None -> once "ofType" sub = None) ->
    type_from l sub = match req d_str "kind" l, opt d_str "name" l, opt d_type "ofType" l with
              | Some k, Some n, Some o => Some (JT k n o) | _, _, _ => None end).
  { intros l sub H1 H2. unfold type_from. destruct (req d_str "kind" l) as [k|]; [|reflexivity].
    destruct (opt d_str "name" l) as [n|]; [|reflexivity]. unfold opt. destruct (once "ofType" l) as [[v|]|].
    - rewrite (H1 _ eq_refl). cbn [option_map]. destruct v; cbn [d_opt]; try reflexivity;
        match goal with |- context [d_type ?x] => destruct (d_type x) end; reflexivity.
    - rewrite (H1 _ eq_refl). reflexivity.
    - rewrite (H2 eq_refl). reflexivity. }
  destruct j as [| | | | |vs|l|]; try reflexivity.
  - destruct vs as [|k [|n [|o [|]]]]; try reflexivity.
    change (d_type (JArr [k; n; o])) with (type_from (combine type_keys [k; n; o]) [("ofType", (o, d_type o))]).
    change (entries type_keys (JArr [k; n; o])) with (Some (combine type_keys [k; n; o])). apply X; cbn.
    + intros x H; injection H as <-. reflexivity.
    + discriminate.
  - cbn [d_type entries]. apply X.
    + induction l as [|[k v] l IH]; cbn.
      * intros o H; injection H as <-. reflexivity.
      * destruct (String.eqb k "ofType"); [|exact IH]. intros o. destruct (once "ofType" l) as [[w|]|]; try discriminate.
        rewrite (IH _ eq_refl). cbn. intros H; injection H as <-. reflexivity.
    + induction l as [|[k v] l IH]; cbn; [discriminate|]. destruct (String.eqb k "ofType"); [|exact IH].
      destruct (once "ofType" l) as [[w|]|] eqn:E.
      * intros _. enough (exists x, once "ofType" ((fix go (l : list (string * json)) :=
                      match l with [] => [] | (k, v) :: l' => (k, (v, d_type v)) :: go l' end) l) = Some (Some x)) as (x & ->) by reflexivity.
        clear IH. revert w E. induction l as [|[k1 v1] l IH]; cbn; [discriminate|]. intros w. destruct (String.eqb k1 "ofType"); [|apply IH].
        destruct (once "ofType" l) as [[?|]|] eqn:E; try discriminate. intros _. apply once_none in E.
        assert (N : once "ofType" ((fix go (l : list (string * json)) :=
                      match l with [] => [] | (k, v) :: l' => (k, (v, d_type v)) :: go l' end) l) = Some None).
        { apply once_none. intros I. apply E. clear - I. induction l as [|[a b] l IH]; [exact I|]. cbn in *. tauto. }
        rewrite N. eauto.
      * discriminate.
      * intros _. rewrite (IH eq_refl). reflexivity.
Qed.

Ltac nodup := repeat constructor; cbn; intuition discriminate.

Lemma jtype_rec' (Q : jtype -> Prop) : (forall k n, Q (JT k n None)) -> (forall k n t, Q t -> Q (JT k n (Some t))) -> forall t, Q t.
Proof. intros H1 H2. fix IH 1. intros [k n [t|]]; [apply H2, IH|apply H1]. Qed.

Lemma type_decodes : decodes d_type says_type.
Proof.
  intros j t. revert j. induction t as [k n|k n t IH] using jtype_rec'; intros j; rewrite d_type_eq.
  - split.
    + destruct (entries type_keys j) as [l|] eqn:El; [|discriminate].
      destruct (req d_str "kind" l) as [k'|] eqn:Ek; [|discriminate]. destruct (opt d_str "name" l) as [n'|] eqn:En; [|discriminate].
      destruct (opt d_type "ofType" l) as [o|] eqn:Eo; [|discriminate]. intros H. injection H as -> -> ->.
      destruct (req_once _ _ _ _ Ek) as (vk & Ok_). destruct (opt_once _ _ _ _ En) as (vn & On). destruct (opt_once _ _ _ _ Eo) as (vo & Oo).
      apply (says_type_ j (fun x => match once x l with Some o => o | None => None end)).
      * apply holds_entries; [nodup|]. exists l. split; [exact El|]. intros x [<-|[<-|[<-|[]]]]; [rewrite Ok_|rewrite On|rewrite Oo]; reflexivity.
      * rewrite Ok_. apply (req_there _ _ str_decodes _ _ _ _ Ok_). exact Ek.
      * rewrite On. apply (opt_maybe _ _ str_decodes _ _ _ _ On). exact En.
      * rewrite Oo. unfold opt in Eo. rewrite Oo in Eo. destruct vo as [v|]; [|constructor].
        destruct v; [apply maybe_null|..]; exfalso; cbn [d_opt] in Eo; match type of Eo with option_map _ ?x = _ => destruct x end; discriminate.
    + intros H. inversion H as [? get ? ? ? Hh Hk Hn Ho]; subst. apply holds_entries in Hh; [|nodup]. destruct Hh as (l & El & Hl).
      change type_keys with ["kind"; "name"; "ofType"]. rewrite El. pose proof (Hl "kind" ltac:(cbn; auto)) as Ok_. pose proof (Hl "name" ltac:(cbn; auto)) as On. pose proof (Hl "ofType" ltac:(cbn; auto)) as Oo.
      apply (req_there _ _ str_decodes _ _ _ _ Ok_) in Hk. apply (opt_maybe _ _ str_decodes _ _ _ _ On) in Hn. rewrite Hk, Hn.
      unfold opt. rewrite Oo. inversion Ho; reflexivity.
  - split.
    + destruct (entries type_keys j) as [l|] eqn:El; [|discriminate].
      destruct (req d_str "kind" l) as [k'|] eqn:Ek; [|discriminate]. destruct (opt d_str "name" l) as [n'|] eqn:En; [|discriminate].
      destruct (opt d_type "ofType" l) as [o|] eqn:Eo; [|discriminate]. intros H. injection H as -> -> ->.
      destruct (req_once _ _ _ _ Ek) as (vk & Ok_). destruct (opt_once _ _ _ _ En) as (vn & On). destruct (opt_once _ _ _ _ Eo) as (vo & Oo).
      apply (says_type_ j (fun x => match once x l with Some o => o | None => None end)).
      * apply holds_entries; [nodup|]. exists l. split; [exact El|]. intros x [<-|[<-|[<-|[]]]]; [rewrite Ok_|rewrite On|rewrite Oo]; reflexivity.
      * rewrite Ok_. apply (req_there _ _ str_decodes _ _ _ _ Ok_). exact Ek.
      * rewrite On. apply (opt_maybe _ _ str_decodes _ _ _ _ On). exact En.
      * rewrite Oo. unfold opt in Eo. rewrite Oo in Eo. destruct vo as [v|]; [|discriminate].
        assert (N : v <> JNull /\ d_type v = Some t).
        { assert (V : v <> JNull) by (intros ->; discriminate Eo). split; [exact V|].
          assert (X : d_opt d_type v = option_map Some (d_type v)) by (destruct v; [congruence|reflexivity..]).
          rewrite X in Eo. destruct (d_type v); [|discriminate]. injection Eo as ->. reflexivity. }
        destruct N as [N E]. constructor; [exact N|]. apply IH. exact E.
    + intros H. inversion H as [? get ? ? ? Hh Hk Hn Ho]; subst. apply holds_entries in Hh; [|nodup]. destruct Hh as (l & El & Hl).
      change type_keys with ["kind"; "name"; "ofType"]. rewrite El. pose proof (Hl "kind" ltac:(cbn; auto)) as Ok_. pose proof (Hl "name" ltac:(cbn; auto)) as On. pose proof (Hl "ofType" ltac:(cbn; auto)) as Oo.
      apply (req_there _ _ str_decodes _ _ _ _ Ok_) in Hk. apply (opt_maybe _ _ str_decodes _ _ _ _ On) in Hn. rewrite Hk, Hn.
      unfold opt. rewrite Oo. inversion Ho as [| |v ? N Hv]; subst. apply IH in Hv. destruct v; cbn [d_opt]; try rewrite Hv; try reflexivity. congruence.
Qed.

(** The decoding of a record: [look] turns the keys' values into facts *)
Ltac found := match goal with |- context [match once ?k ?l with _ => _ end] => idtac end.
Definition getter (l : list (string * json)) (k : string) : option json := match once k l with Some o => o | None => None end.
Lemma getter_eq l k o : once k l = Some o -> getter l k = o.
Proof. unfold getter. intros ->. reflexivity. Qed.

Lemma name_decodes : decodes d_name says_name.
Proof.
  intros j n. unfold d_name. split.
  - destruct (entries ["name"] j) as [l|] eqn:El; [|discriminate]. intros H. destruct (req_once _ _ _ _ H) as (v & Ov).
    apply (says_name_ j (getter l)).
    + apply holds_entries; [nodup|]. exists l. split; [exact El|]. intros x [<-|[]]. rewrite (getter_eq _ _ _ Ov). exact Ov.
    + rewrite (getter_eq _ _ _ Ov). apply (req_there _ _ str_decodes _ _ _ _ Ov). exact H.
  - intros [j' get n' Hh H]. apply holds_entries in Hh; [|nodup]. destruct Hh as (l & El & Hl). rewrite El.
    apply (req_there _ _ str_decodes _ _ _ _ (Hl "name" (or_introl eq_refl))). exact H.
Qed.

Lemma within_decodes {A} key (d : json -> option A) says : decodes d says ->
  decodes (fun j => match entries [key] j with None => None | Some l => req d key l end) (says_within key says).
Proof.
  intros D j n. split.
  - destruct (entries [key] j) as [l|] eqn:El; [|discriminate]. intros H. destruct (req_once _ _ _ _ H) as (v & Ov).
    apply (says_within_ key says j (getter l)).
    + apply holds_entries; [nodup|]. exists l. split; [exact El|]. intros x [<-|[]]. rewrite (getter_eq _ _ _ Ov). exact Ov.
    + rewrite (getter_eq _ _ _ Ov). apply (req_there _ _ D _ _ _ _ Ov). exact H.
  - intros [j' get n' Hh H]. apply holds_entries in Hh; [|nodup]. destruct Hh as (l & El & Hl). rewrite El.
    apply (req_there _ _ D _ _ _ _ (Hl key (or_introl eq_refl))). exact H.
Qed.

Lemma field_decodes : decodes d_field says_field.
Proof.
  intros j f. unfold d_field. split.
  - destruct (entries field_keys j) as [l|] eqn:El; [|discriminate].
    destruct (req d_str "name" l) as [n|] eqn:En; [|discriminate]. destruct (opt d_str "description" l) as [d|] eqn:Ed; [|discriminate].
    destruct (req d_type "type" l) as [t|] eqn:Et; [|discriminate]. destruct (opt d_bool "isDeprecated" l) as [b|] eqn:Eb; [|discriminate].
    intros H; injection H as <-. destruct (req_once _ _ _ _ En) as (vn & On). destruct (opt_once _ _ _ _ Ed) as (vd & Od).
    destruct (req_once _ _ _ _ Et) as (vt & Ot). destruct (opt_once _ _ _ _ Eb) as (vb & Ob).
    apply (says_field_ j (getter l)).
    + apply holds_entries; [nodup|]. exists l. split; [exact El|].
      intros x [<-|[<-|[<-|[<-|[]]]]]; [rewrite (getter_eq _ _ _ On); exact On|rewrite (getter_eq _ _ _ Od); exact Od|
        rewrite (getter_eq _ _ _ Ot); exact Ot|rewrite (getter_eq _ _ _ Ob); exact Ob].
    + rewrite (getter_eq _ _ _ On). apply (req_there _ _ str_decodes _ _ _ _ On). exact En.
    + rewrite (getter_eq _ _ _ Od). apply (opt_maybe _ _ str_decodes _ _ _ _ Od). exact Ed.
    + rewrite (getter_eq _ _ _ Ot). apply (req_there _ _ type_decodes _ _ _ _ Ot). exact Et.
    + rewrite (getter_eq _ _ _ Ob). apply (opt_maybe _ _ bool_decodes _ _ _ _ Ob). exact Eb.
  - intros [j' get f' Hh Hn Hd Ht Hb]. apply holds_entries in Hh; [|nodup]. destruct Hh as (l & El & Hl).
    change field_keys with ["name"; "description"; "type"; "isDeprecated"]. rewrite El.
    apply (req_there _ _ str_decodes _ _ _ _ (Hl "name" ltac:(cbn; auto))) in Hn. rewrite Hn.
    apply (opt_maybe _ _ str_decodes _ _ _ _ (Hl "description" ltac:(cbn; auto))) in Hd. rewrite Hd.
    apply (req_there _ _ type_decodes _ _ _ _ (Hl "type" ltac:(cbn; auto))) in Ht. rewrite Ht.
    apply (opt_maybe _ _ bool_decodes _ _ _ _ (Hl "isDeprecated" ltac:(cbn; auto))) in Hb. rewrite Hb. destruct f'; reflexivity.
Qed.

Lemma typedef_decodes : decodes d_typedef says_typedef.
Proof.
  pose proof (list_decodes _ _ name_decodes) as Dn. pose proof (list_decodes _ _ field_decodes) as Df.
  intros j t. unfold d_typedef. split.
  - destruct (entries typedef_keys j) as [l|] eqn:El; [|discriminate].
    destruct (req d_str "kind" l) as [k|] eqn:Ek; [|discriminate]. destruct (req d_str "name" l) as [n|] eqn:En; [|discriminate].
    destruct (opt d_str "description" l) as [d|] eqn:Ed; [|discriminate]. destruct (opt (d_list d_name) "possibleTypes" l) as [ps|] eqn:Ep; [|discriminate].
    destruct (opt (d_list d_field) "inputFields" l) as [is|] eqn:Ei; [|discriminate]. destruct (opt (d_list d_field) "fields" l) as [fs|] eqn:Ef; [|discriminate].
    destruct (opt (d_list d_name) "enumValues" l) as [vs|] eqn:Ev; [|discriminate]. intros H; injection H as <-.
    destruct (req_once _ _ _ _ Ek) as (vk & Hk). destruct (req_once _ _ _ _ En) as (vn & Hn). destruct (opt_once _ _ _ _ Ed) as (vd & Hd).
    destruct (opt_once _ _ _ _ Ep) as (vp & Hp). destruct (opt_once _ _ _ _ Ei) as (vi & Hi). destruct (opt_once _ _ _ _ Ef) as (vf & Hf).
    destruct (opt_once _ _ _ _ Ev) as (vv & Hv).
    apply (says_typedef_ j (getter l)); cbn [jt_kind jt_name jt_description jt_possible_types jt_input_fields jt_fields jt_enum_values].
    + apply holds_entries; [nodup|]. exists l. split; [exact El|]. intros x I.
      assert (X : exists o, once x l = Some o) by (repeat destruct I as [<-|I]; eauto; destruct I).
      destruct X as (o & X). rewrite (getter_eq _ _ _ X). exact X.
    + rewrite (getter_eq _ _ _ Hk). apply (req_there _ _ str_decodes _ _ _ _ Hk). exact Ek.
    + rewrite (getter_eq _ _ _ Hn). apply (req_there _ _ str_decodes _ _ _ _ Hn). exact En.
    + rewrite (getter_eq _ _ _ Hd). apply (opt_maybe _ _ str_decodes _ _ _ _ Hd). exact Ed.
    + rewrite (getter_eq _ _ _ Hp). apply (opt_maybe _ _ Dn _ _ _ _ Hp). exact Ep.
    + rewrite (getter_eq _ _ _ Hi). apply (opt_maybe _ _ Df _ _ _ _ Hi). exact Ei.
    + rewrite (getter_eq _ _ _ Hf). apply (opt_maybe _ _ Df _ _ _ _ Hf). exact Ef.
    + rewrite (getter_eq _ _ _ Hv). apply (opt_maybe _ _ Dn _ _ _ _ Hv). exact Ev.
  - intros [j' get t' Hh Hk Hn Hd Hp Hi Hf Hv]. apply holds_entries in Hh; [|nodup]. destruct Hh as (l & El & Hl).
    change typedef_keys with ["kind"; "name"; "description"; "possibleTypes"; "inputFields"; "fields"; "enumValues"]. rewrite El.
    apply (req_there _ _ str_decodes _ _ _ _ (Hl "kind" ltac:(cbn; auto))) in Hk. rewrite Hk.
    apply (req_there _ _ str_decodes _ _ _ _ (Hl "name" ltac:(cbn; auto))) in Hn. rewrite Hn.
    apply (opt_maybe _ _ str_decodes _ _ _ _ (Hl "description" ltac:(cbn; auto))) in Hd. rewrite Hd.
    apply (opt_maybe _ _ Dn _ _ _ _ (Hl "possibleTypes" ltac:(cbn; tauto))) in Hp. rewrite Hp.
    apply (opt_maybe _ _ Df _ _ _ _ (Hl "inputFields" ltac:(cbn; tauto))) in Hi. rewrite Hi.
    apply (opt_maybe _ _ Df _ _ _ _ (Hl "fields" ltac:(cbn; tauto))) in Hf. rewrite Hf.
    apply (opt_maybe _ _ Dn _ _ _ _ (Hl "enumValues" ltac:(cbn; tauto))) in Hv. rewrite Hv. destruct t'; reflexivity.
Qed.

Lemma schema_decodes : decodes d_schema says_schema.
Proof. apply within_decodes, within_decodes, within_decodes, list_decodes, typedef_decodes. Qed.

Lemma config_decodes : decodes d_config says_config.
Proof.
  intros j c. unfold d_config. split.
  - destruct (entries config_keys j) as [l|] eqn:El; [|discriminate].
    destruct (opt d_str "schemaFile" l) as [a1|] eqn:E1; [|discriminate]. destruct (opt d_bool "useCustomScalars" l) as [a2|] eqn:E2; [|discriminate].
    destruct (opt d_bool "disableReadonlyTypes" l) as [a3|] eqn:E3; [|discriminate]. destruct (opt d_str "customScalarPrefix" l) as [a4|] eqn:E4; [|discriminate].
    destruct (opt d_nat "numThreads" l) as [a5|] eqn:E5; [|discriminate]. destruct (opt d_bool "showDeprecationWarnings" l) as [a6|] eqn:E6; [|discriminate].
    destruct (opt d_str "rootDirImportPrefix" l) as [a7|] eqn:E7; [|discriminate]. destruct (opt d_str "globalTypesModuleName" l) as [a8|] eqn:E8; [|discriminate].
    destruct (opt d_str "typedGraphqlDocumentnodeModuleName" l) as [a9|] eqn:E9; [|discriminate]. intros H; injection H as <-.
    destruct (opt_once _ _ _ _ E1) as (v1 & H1). destruct (opt_once _ _ _ _ E2) as (v2 & H2). destruct (opt_once _ _ _ _ E3) as (v3 & H3).
    destruct (opt_once _ _ _ _ E4) as (v4 & H4). destruct (opt_once _ _ _ _ E5) as (v5 & H5). destruct (opt_once _ _ _ _ E6) as (v6 & H6).
    destruct (opt_once _ _ _ _ E7) as (v7 & H7). destruct (opt_once _ _ _ _ E8) as (v8 & H8). destruct (opt_once _ _ _ _ E9) as (v9 & H9).
    apply (says_config_ j (getter l)); cbn [cf_schema_path cf_use_custom_scalars cf_disable_readonly_types cf_custom_scalar_prefix cf_num_threads
      cf_show_deprecation_warnings cf_root_dir_import_prefix cf_global_types_module_name cf_docnode_module_name].
    + apply holds_entries; [nodup|]. exists l. split; [exact El|]. intros x I.
      assert (X : exists o, once x l = Some o) by (repeat destruct I as [<-|I]; eauto; destruct I).
      destruct X as (o & X). rewrite (getter_eq _ _ _ X). exact X.
    + rewrite (getter_eq _ _ _ H1). apply (opt_maybe _ _ str_decodes _ _ _ _ H1). exact E1.
    + rewrite (getter_eq _ _ _ H2). apply (opt_maybe _ _ bool_decodes _ _ _ _ H2). exact E2.
    + rewrite (getter_eq _ _ _ H3). apply (opt_maybe _ _ bool_decodes _ _ _ _ H3). exact E3.
    + rewrite (getter_eq _ _ _ H4). apply (opt_maybe _ _ str_decodes _ _ _ _ H4). exact E4.
    + rewrite (getter_eq _ _ _ H5). apply (opt_maybe _ _ nat_decodes _ _ _ _ H5). exact E5.
    + rewrite (getter_eq _ _ _ H6). apply (opt_maybe _ _ bool_decodes _ _ _ _ H6). exact E6.
    + rewrite (getter_eq _ _ _ H7). apply (opt_maybe _ _ str_decodes _ _ _ _ H7). exact E7.
    + rewrite (getter_eq _ _ _ H8). apply (opt_maybe _ _ str_decodes _ _ _ _ H8). exact E8.
    + rewrite (getter_eq _ _ _ H9). apply (opt_maybe _ _ str_decodes _ _ _ _ H9). exact E9.
  - intros [j' get c' Hh H1 H2 H3 H4 H5 H6 H7 H8 H9]. apply holds_entries in Hh; [|nodup]. destruct Hh as (l & El & Hl).
    change config_keys with ["schemaFile"; "useCustomScalars"; "disableReadonlyTypes"; "customScalarPrefix"; "numThreads";
           "showDeprecationWarnings"; "rootDirImportPrefix"; "globalTypesModuleName"; "typedGraphqlDocumentnodeModuleName"]. rewrite El.
    apply (opt_maybe _ _ str_decodes _ _ _ _ (Hl "schemaFile" ltac:(cbn; tauto))) in H1. rewrite H1.
    apply (opt_maybe _ _ bool_decodes _ _ _ _ (Hl "useCustomScalars" ltac:(cbn; tauto))) in H2. rewrite H2.
    apply (opt_maybe _ _ bool_decodes _ _ _ _ (Hl "disableReadonlyTypes" ltac:(cbn; tauto))) in H3. rewrite H3.
    apply (opt_maybe _ _ str_decodes _ _ _ _ (Hl "customScalarPrefix" ltac:(cbn; tauto))) in H4. rewrite H4.
    apply (opt_maybe _ _ nat_decodes _ _ _ _ (Hl "numThreads" ltac:(cbn; tauto))) in H5. rewrite H5.
    apply (opt_maybe _ _ bool_decodes _ _ _ _ (Hl "showDeprecationWarnings" ltac:(cbn; tauto))) in H6. rewrite H6.
    apply (opt_maybe _ _ str_decodes _ _ _ _ (Hl "rootDirImportPrefix" ltac:(cbn; tauto))) in H7. rewrite H7.
    apply (opt_maybe _ _ str_decodes _ _ _ _ (Hl "globalTypesModuleName" ltac:(cbn; tauto))) in H8. rewrite H8.
    apply (opt_maybe _ _ str_decodes _ _ _ _ (Hl "typedGraphqlDocumentnodeModuleName" ltac:(cbn; tauto))) in H9. rewrite H9. destruct c'; reflexivity.
Qed.

(** The standard form *)
Lemma d_all_map {A} (d : json -> option A) w (l : list A) : (forall a, d (w a) = Some a) -> d_all d (List.map w l) = Some l.
Proof. intros H. induction l as [|a l IH]; [reflexivity|]. cbn. rewrite H, IH. reflexivity. Qed.
Lemma w_str_opt o : d_opt d_str (w_str o) = Some o.
Proof. destruct o; reflexivity. Qed.
Lemma w_list_opt {A} (d : json -> option A) w o : (forall a, d (w a) = Some a) -> d_opt (d_list d) (w_list w o) = Some o.
Proof. intros H. destruct o as [l|]; [|reflexivity]. cbn. rewrite (d_all_map d w l H). reflexivity. Qed.
Lemma w_type_d t : d_type (w_type t) = Some t.
Proof.
  induction t as [k n|k n t IH] using jtype_rec'; rewrite d_type_eq; cbn [w_type entries]; unfold req, opt; cbn [once String.eqb Ascii.eqb Bool.eqb];
    cbn -[d_opt d_type w_type]; rewrite w_str_opt; [reflexivity|].
  assert (X : d_opt d_type (w_type t) = Some (Some t)).
  { destruct t as [k' n' o']. change (d_opt d_type (w_type (JT k' n' o'))) with (option_map Some (d_type (w_type (JT k' n' o')))). rewrite IH. reflexivity. }
  rewrite X. reflexivity.
Qed.
Lemma w_field_d f : d_field (w_field f) = Some f.
Proof.
  unfold d_field, w_field. cbn [entries]. unfold req, opt. cbn -[d_opt d_type w_type]. rewrite w_str_opt, w_type_d.
  destruct f as [n d t [b|]]; reflexivity.
Qed.
Lemma w_typedef_d t : d_typedef (w_typedef t) = Some t.
Proof.
  unfold d_typedef, w_typedef. cbn [entries]. unfold req, opt. cbn -[d_opt d_list d_field w_field].
  rewrite w_str_opt, !(w_list_opt d_field w_field _ w_field_d), !(w_list_opt d_name w_name _ ltac:(reflexivity)). destruct t; reflexivity.
Qed.
Lemma w_schema_d js : d_schema (w_schema js) = Some js.
Proof. unfold d_schema, w_schema, req. cbn -[d_typedef w_typedef]. apply d_all_map. exact w_typedef_d. Qed.
