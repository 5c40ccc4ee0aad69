(** C16: abstract types - every possible type is covered exactly once. *)
From Verif Require Import DeclFacts RegCheck ShareWorlds.

Section Cover.
  Variable c : cconfig.
  Variable s : schema.
  Variable frags : amap string fragdef.

  (** The expression under the wrappers of a property: for [__typename] the names [ts], for leaves the
      scalar or enum, otherwise some declared type *)
  Definition core_type (ts : list string) (ft : ftype) (e : texpr) : Prop :=
    match ft_def ft with
    | FDTypeName => forall env v, denote env e v <-> exists T, In T ts /\ v = VStr T
    | FDScalar sc => exists n, e = XName n /\ scalar_written c sc n
    | FDEnum => e = XName (ft_name ft)
    | FDObject | FDInterface | FDUnion | FDInputObject => exists sub, e = XName sub
    end.
  (** The property's type accepts what the modifiers of the field type say, given its core *)
  Definition prop_type (ts : list string) (ft : ftype) (e : texpr) : Prop :=
    core_type ts ft (core_of e) /\
    forall env v, denote env e v <-> sems (rev (ft_rest ft)) (sem (ft_mod ft) (denote env (core_of e))) v.

  (** The type [main] of module [D] consists of alternatives, each standing for some object types;
      together they stand for each possible object type exactly once; and the alternative for [T] has
      exactly [T]'s properties, with [T]'s types; and so on for the types of its properties *)
  Inductive covered (D : list decl) : string -> selset -> string -> Prop :=
  | covered_intro P (M : selset) main (groups : list (string * list string)) :
      alternatives D main (List.map fst groups) ->
      NoDup (List.map fst groups) ->
      (forall T, In T (flat_map snd groups) <-> possible s P T) -> NoDup (flat_map snd groups) ->
      (forall n ts, In (n, ts) groups -> ts <> [] /\ exists ms, In (DObj n ms) D /\ NoDup (List.map m_name ms) /\
         forall T, In T ts ->
           (forall k, In k (List.map m_name ms) <-> key s frags P M T k) /\
           (forall m f ss, In m ms -> focc s frags T P M (m_name m) f ss -> prop_type ts (sf_type f) (m_type m)) /\
           (forall m f ss sub, In m ms -> focc s frags T P M (m_name m) f ss ->
              composite s (ft_name (sf_type f)) -> core_of (m_type m) = XName sub ->
              covered D (ft_name (sf_type f)) (merged (focc s frags T P M) (m_name m) (ft_name (sf_type f))) sub)) ->
      covered D P M main.
End Cover.

Lemma core_lits ns : core_of (lit_union ns) = lit_union ns.
Proof.
  destruct ns as [|n ns]; [reflexivity|]. cbn [lit_union].
  assert (H : forall l e, core_of e = e -> core_of (fold_left (fun e x => XUnion e (XLit x)) l e) = fold_left (fun e x => XUnion e (XLit x)) l e).
  { induction l as [|x l IH]; intros e E; cbn [fold_left]; auto. }
  apply H. reflexivity.
Qed.
Lemma denote_lits env ns v : ns <> [] -> (denote env (lit_union ns) v <-> exists T, In T ns /\ v = VStr T).
Proof.
  destruct ns as [|n ns]; [congruence|]. intros _. cbn [lit_union].
  assert (H : forall l e, denote env (fold_left (fun e x => XUnion e (XLit x)) l e) v <-> denote env e v \/ exists T, In T l /\ v = VStr T).
  { induction l as [|x l IH]; intros e; cbn [fold_left].
    - split; [auto|intros [H|(T & [] & _)]; auto].
    - rewrite IH. cbn [denote]. split.
      + intros [[H|H]|(T & I & H)]; eauto. right. exists x. split; [left; auto|auto]. right. exists T. split; [right; auto|auto].
      + intros [H|(T & [<-|I] & H)]; eauto. }
  rewrite H. cbn [denote]. split.
  - intros [E|(T & I & E)]; [exists n|exists T]; split; auto; [left; auto|right; auto].
  - intros (T & [<-|I] & E); eauto.
Qed.

Lemma des_covered c s frags D : proper_types s -> consistent s ->
  forall P M main, des c s frags D P M main -> covered c s frags D P M main.
Proof.
  intros Pt Co.
  destruct (des_mutind c s frags D
    (fun P M main => covered c s frags D P M main)
    (fun ts O ms => ts <> [] -> NoDup (List.map m_name ms) /\ (forall k, In k (List.map m_name ms) <-> exists f ss, O k f ss) /\
       (forall m f ss, In m ms -> O (m_name m) f ss -> prop_type c ts (sf_type f) (m_type m)) /\
       forall m f ss sub, In m ms -> O (m_name m) f ss -> kind_agrees s f -> composite s (ft_name (sf_type f)) -> core_of (m_type m) = XName sub ->
           covered c s frags D (ft_name (sf_type f)) (merged O (m_name m) (ft_name (sf_type f))) sub)
    (fun ts ft M e => ts <> [] -> prop_type c ts ft e /\
       forall sub, (forall f, sf_type f = ft -> kind_agrees s f) -> composite s (ft_name ft) -> core_of e = XName sub -> covered c s frags D (ft_name ft) M sub)
    (fun ts ft M e => ts <> [] -> core_of e = e /\ core_type c ts ft e /\
       forall sub, (forall f, sf_type f = ft -> kind_agrees s f) -> composite s (ft_name ft) -> e = XName sub -> covered c s frags D (ft_name ft) M sub)) as (H & _).
  - intros P M main groups Hm Nn Hp Np Hd Ht Hn _ IH.
    assert (E1 : List.map fst (List.map (fun g : group => fst g) groups) = List.map (fun g : group => fst (fst g)) groups) by (rewrite map_map; reflexivity).
    assert (E2 : flat_map snd (List.map (fun g : group => fst g) groups) = flat_map (fun g : group => snd (fst g)) groups).
    { clear. induction groups as [|g gs IH]; cbn; congruence. }
    apply (covered_intro c s frags D P M main (List.map (fun g : group => fst g) groups)); rewrite ?E1, ?E2; auto.
    + destruct Hm as [(g & -> & <-)|Hm]; [left; reflexivity|right; exact Hm].
    + intros n ts I. apply in_map_iff in I. destruct I as ([[n' ts'] ms] & E & I). cbn in E. injection E as -> ->.
      split; [eapply Ht; eauto|]. exists ms. split; [eapply Hd; eauto|].
      assert (Nt : ts <> []) by (eapply Ht; eauto). split.
      * destruct ts as [|T ts]; [congruence|]. apply (IH n (T :: ts) ms T I); auto. left; auto.
      * intros T J. destruct (IH n ts ms T I J Nt) as (_ & K1 & K2 & K3). split; [exact K1|]. split; [exact K2|].
        intros m f ss sub Im F. apply (K3 m f ss sub Im F). destruct F as (P' & nm & _ & F). eapply Co; eauto.
  - intros ts O ms Nd Hf Hk _ IH Nt. split; auto. split; [|split].
    + intros k. split; [|intros (f & ss & F); eauto]. intros I. apply in_map_iff in I. destruct I as (m & <- & I). auto.
    + intros m f ss I F. apply (IH m f ss I F Nt).
    + intros m f ss sub I F K C E. apply (IH m f ss I F Nt); auto. intros f' E'. unfold kind_agrees. rewrite E'. exact K.
  - intros ts ft M e0 _ IH Nt. destruct (IH Nt) as (E & Ct & Cv). split; [|rewrite core_ptd, E; exact Cv].
    split; rewrite core_ptd, E; [exact Ct|]. intros env v. apply denote_ptd.
  - intros ts ft M E Nt. split; [apply core_lits|]. split; [|].
    + unfold core_type. rewrite E. intros env v. apply denote_lits. auto.
    + intros sub K C. exfalso. set (f := {| sf_name := ""; sf_doc := None; sf_type := ft; sf_deprecated := false |}).
      pose proof (K f eq_refl) as X. unfold kind_agrees in X. cbn [f sf_type] in X. rewrite E in X. auto.
  - intros ts ft M sc E Nt. split; [reflexivity|]. split.
    + unfold core_type. rewrite E. exists (scalar_ts c sc). split; auto. unfold scalar_written, scalar_ts, custom_scalar_name.
      destruct sc; auto. destruct (cc_bottom c); auto.
    + intros sub K C. exfalso. set (f := {| sf_name := ""; sf_doc := None; sf_type := ft; sf_deprecated := false |}).
      pose proof (K f eq_refl) as X. unfold kind_agrees in X. cbn [f sf_type] in X. rewrite E in X. auto.
  - intros ts ft M E Nt. split; [reflexivity|]. split.
    + unfold core_type. rewrite E. reflexivity.
    + intros sub K C. exfalso. set (f := {| sf_name := ""; sf_doc := None; sf_type := ft; sf_deprecated := false |}).
      pose proof (K f eq_refl) as X. unfold kind_agrees in X. cbn [f sf_type] in X. rewrite E in X.
      destruct C as (t & Et & C). rewrite Et in X. destruct X as (vs & X). cbn in X. injection X as X. rewrite X in C. exact C.
  - intros ts ft M sub E C _ IH Nt. split; [reflexivity|]. split.
    + unfold core_type. destruct (ft_def ft); try discriminate; eauto.
    + intros sub' _ _ X. injection X as <-. exact IH.
  - exact H.
Qed.

Theorem C16_partial : forall fuel cx c o d ws co P l,
  order_ok (cx_order cx) -> order_ok o -> consistent (cx_schema cx) -> proper_types (cx_schema cx) ->
  document_file fuel cx c o d ws co -> doc_root d = Some (P, l) -> is_subscription d = false ->
  frags_valid (cx_schema cx) (cx_frags cx) l ->
  regular (cx_schema cx) (cx_frags cx) P (fun x => In x l) ->
  exists m, written_as cx c d co m /\
    covered c (cx_schema cx) (cx_frags cx) (tf_decls m) P (fun x => In x l) (def_name d).
Proof.
  intros fuel cx c o d ws co P l O O' Co Pt H Dr Su Fv R.
  destruct (document_described _ _ _ _ _ _ _ _ _ O O' Co Pt H Dr Su Fv) as (op & ds & us & vds & vus & _ & _ & _ & _ & _ & _ & _ & _ & _ & _ & Et & X).
  exists (file_of c op (ds ++ vds) (co_globals co)). split; auto. cbn [file_of tf_decls].
  apply des_covered; auto. apply X; auto. intros x I. apply in_or_app. auto.
Qed.
Print Assumptions C16_partial.

Example C16_nonvacuous : exists ws co m, document_file 20 (farm_cx [pet_name]) plain_config plain_order (query good_sels) ws co /\
  reads_as co m /\
  covered plain_config farm (cx_frags (farm_cx [pet_name])) (tf_decls m) "Query" (fun x => In x good_sels) "Q" /\
  possible farm "Pet" "Dog" /\ possible farm "Pet" "Cat" /\ possible farm "Pet" "Eel".
Proof.
  destruct good_compiles as (ws & co & H & _). exists ws, co.
  destruct (C16_partial 20 (farm_cx [pet_name]) plain_config plain_order (query good_sels) ws co "Query" good_sels
    plain_ok plain_ok farm_consistent farm_proper H eq_refl eq_refl good_frags good_regular) as (m & E & K).
  exists m. split; auto. split; [exact (good_reads _ _ E)|]. split; auto. rewrite <- !possibles_ok. cbn. tauto.
Qed.

(** Cats, dogs and eels are merged into one alternative although what is selected for their owners
    differs (a valid document) *)
Theorem C16_refuted : exists cx c o l ws co m,
  order_ok (cx_order cx) /\ order_ok o /\ consistent (cx_schema cx) /\ proper_types (cx_schema cx) /\
  document_file 20 cx c o (query l) ws co /\ valid_sels (cx_schema cx) (cx_frags cx) "Query" l /\
  reads_as co m /\
  ~ covered c (cx_schema cx) (cx_frags cx) (tf_decls m) "Query" (fun x => In x l) "Q".
Proof.
  destruct split_compiles as (ws & co & H & E & _).
  exists (farm_cx []), plain_config, plain_order, split_sels, ws, co, split_module.
  split; [exact plain_ok|]. split; [exact plain_ok|]. split; [exact farm_consistent|]. split; [exact farm_proper|].
  split; auto. split; [exact split_valid|]. split; auto. cbn [farm_cx cx_schema cx_frags List.map]. intros K.
  assert (Al : forall main (groups : list (string * list string)) T, alternatives (tf_decls split_module) main (List.map fst groups) ->
    In T (flat_map snd groups) -> exists ts, In (main, ts) groups /\ In T ts).
  { intros main groups T [A|A] I.
    - destruct groups as [|[n ts] [|? ?]]; try discriminate. cbn in A. injection A as ->. cbn in I. rewrite app_nil_r in I. exists ts. cbn; auto.
    - cbn in A. intuition discriminate. }
  inversion K as [P M main groups A _ Hp _ X]; subst.
  destruct (Al _ _ _ A (proj2 (Hp "Query") (proj1 (possibles_ok farm "Query" "Query") (or_introl eq_refl)))) as (ts & I & J).
  destruct (X _ _ I) as (_ & ms & Im & _ & Y). destruct (Y _ J) as (_ & _ & Z).
  cbn in Im. destruct Im as [Im|[Im|[Im|[]]]]; try discriminate. injection Im as <-.
  assert (F1 : focc farm [] "Query" "Query" (fun x => In x split_sels) "pet" (match field_get farm "Query" "pet" with Some f => f | None => root_field end)
     [on 3 "Cat" [node 3 "owner" [leaf 3 "name"]]; on 4 "Dog" [node 4 "owner" [leaf 4 "mood"]]; on 5 "Eel" [node 5 "owner" [leaf 5 "name"]]]).
  { eexists _, _. split; [eapply (occ_field _ _ _ _ _ _ None); left; reflexivity|]. apply field_get_ok. reflexivity. }
  assert (K2 := Z _ _ _ "Q_pet" (or_introl eq_refl) F1 (proj1 (compositeb_ok farm "Pet") eq_refl) eq_refl). clear K A Hp X Y Z I J F1 groups ts.
  change (covered plain_config farm [] (tf_decls split_module) "Pet" (merged (focc farm [] "Query" "Query" (fun x => In x split_sels)) "pet" "Pet") "Q_pet") in K2.
  set (M2 := merged _ "pet" "Pet") in K2.
  assert (F2 : focc farm [] "Dog" "Pet" M2 "owner" (match field_get farm "Dog" "owner" with Some f => f | None => root_field end) [leaf 4 "mood"]).
  { eexists "Dog", "owner". split; [|apply field_get_ok; reflexivity]. eapply (occ_inline _ _ _ _ _ (at_pos 4 3) "Dog" []).
    - eexists _, _. split; [eexists _, _; split; [eapply (occ_field _ _ _ _ _ _ None); left; reflexivity|apply field_get_ok; reflexivity]|].
      split; [reflexivity|]. right. left. reflexivity.
    - apply possibles_ok. left; reflexivity.
    - eapply (occ_field _ _ _ _ _ _ None); left; reflexivity. }
  inversion K2 as [P M main groups A _ Hp _ X]; subst.
  destruct (Al _ _ _ A (proj2 (Hp "Dog") (proj1 (possibles_ok farm "Pet" "Dog") (or_introl eq_refl)))) as (ts & I & J).
  destruct (X _ _ I) as (_ & ms & Im & _ & Y). destruct (Y _ J) as (_ & _ & Z).
  cbn in Im. destruct Im as [Im|[Im|[Im|[]]]]; try discriminate. injection Im as <-.
  assert (K3 := Z _ _ _ "Q_pet_owner" (or_introl eq_refl) F2 (proj1 (compositeb_ok farm "User") eq_refl) eq_refl). clear K2 A Hp X Y Z I J groups ts.
  change (covered plain_config farm [] (tf_decls split_module) "User" (merged (focc farm [] "Dog" "Pet" M2) "owner" "User") "Q_pet_owner") in K3.
  inversion K3 as [P M main groups A _ Hp _ X]; subst.
  destruct (Al _ _ _ A (proj2 (Hp "User") (proj1 (possibles_ok farm "User" "User") (or_introl eq_refl)))) as (ts & I & J).
  destruct (X _ _ I) as (_ & ms & Im & _ & Y). destruct (Y _ J) as (Z & _ & _).
  cbn in Im. destruct Im as [Im|[Im|[Im|[]]]]; try discriminate. injection Im as <-.
  enough (In "mood" ["name"]) by (cbn in *; intuition discriminate). apply (proj2 (Z "mood")).
  eexists _, []. eexists "User", "mood". split; [|apply field_get_ok; reflexivity].
  eapply (occ_field _ _ _ _ _ _ None). eexists _, _. split; [exact F2|]. split; [reflexivity|left; reflexivity].
Qed.
Print Assumptions C16_refuted.
