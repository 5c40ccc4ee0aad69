(** C03: exact response keys per concrete type. *)
From Verif Require Import DeclFacts RegCheck ShareWorlds.

Section Keys.
  Variable s : schema.
  Variable frags : amap string fragdef.

  (** The type [main] of module [D] lists exactly the response keys: for each object type the value
      can have, the alternative for it has exactly the keys collected for that object type *)
  Definition exact_here (D : list decl) (P : string) (M : selset) (main : string) : Prop :=
    exists alts, alternatives D main alts /\
      forall T, possible s P T -> exists n ms, alternative main alts T n /\ In (DObj n ms) D /\
        forall k, In k (List.map m_name ms) <-> key s frags P M T k.

  (** ... and so do the types of its properties, at every depth *)
  Inductive exact_keys (D : list decl) : string -> selset -> string -> Prop :=
  | exact_intro P (M : selset) main alts :
      alternatives D main alts ->
      (forall T, possible s P T -> exists n ms, alternative main alts T n /\ In (DObj n ms) D /\
         (forall k, In k (List.map m_name ms) <-> key s frags P M T k) /\
         forall m f ss, In m ms -> focc s frags T P M (m_name m) f ss -> composite s (ft_name (sf_type f)) ->
           exists sub, core_of (m_type m) = XName sub /\
             exact_keys D (ft_name (sf_type f)) (merged (focc s frags T P M) (m_name m) (ft_name (sf_type f))) sub) ->
      exact_keys D P M main.
End Keys.

Lemma des_exact c s frags D : proper_types s -> consistent s -> forall P M main, des c s frags D P M main -> exact_keys s frags D P M main.
Proof.
  intros Pt Co.
  destruct (des_mutind c s frags D
    (fun P M main => exact_keys s frags D P M main)
    (fun ts O ms => (forall k, In k (List.map m_name ms) <-> exists f ss, O k f ss) /\
       forall m f ss, In m ms -> O (m_name m) f ss -> composite s (ft_name (sf_type f)) -> kind_agrees s f ->
         exists sub, core_of (m_type m) = XName sub /\
           exact_keys s frags D (ft_name (sf_type f)) (merged O (m_name m) (ft_name (sf_type f))) sub)
    (fun ts ft M e => composite s (ft_name ft) -> (forall f, sf_type f = ft -> kind_agrees s f) ->
       exists sub, core_of e = XName sub /\ exact_keys s frags D (ft_name ft) M sub)
    (fun ts ft M e => composite s (ft_name ft) -> (forall f, sf_type f = ft -> kind_agrees s f) ->
       exists sub, core_of e = XName sub /\ exact_keys s frags D (ft_name ft) M sub)) as (H & _).
  - intros P M main groups Hm Nn Hp Np Hd Ht Hn _ IH.
    apply (exact_intro s frags D P M main (List.map (fun g : group => fst (fst g)) groups)).
    + destruct Hm as [(g & -> & <-)|Hm]; [left; reflexivity|right; exact Hm].
    + intros T Po. pose proof (proj2 (Hp T) Po) as I. apply in_flat_map in I. destruct I as ([[n ts] ms] & I & J). cbn [fst snd] in J.
      exists n, ms. split; [eapply named_alternative; eauto|]. split; [eapply Hd; eauto|].
      destruct (IH n ts ms T I J) as [K1 K2]. split; [exact K1|].
      intros m f ss Im F C. apply (K2 m f ss Im F C). destruct F as (P' & nm & _ & F). eapply Co; eauto.
  - intros ts O ms Nd Hf Hk _ IH. split.
    + intros k. split; [|intros (f & ss & F); eauto]. intros I. apply in_map_iff in I. destruct I as (m & <- & I). auto.
    + intros m f ss I F C K. apply (IH m f ss I F C). intros f' E. unfold kind_agrees. rewrite E. exact K.
  - intros ts ft M e0 _ IH C K. rewrite core_ptd. auto.
  - intros ts ft M E C K. exfalso. set (f := {| sf_name := ""; sf_doc := None; sf_type := ft; sf_deprecated := false |}).
    pose proof (K f eq_refl) as X. unfold kind_agrees in X. cbn [f sf_type] in X. rewrite E in X. auto.
  - intros ts ft M sc E C K. exfalso. set (f := {| sf_name := ""; sf_doc := None; sf_type := ft; sf_deprecated := false |}).
    pose proof (K f eq_refl) as X. unfold kind_agrees in X. cbn [f sf_type] in X. rewrite E in X. auto.
  - intros ts ft M E C K. exfalso. set (f := {| sf_name := ""; sf_doc := None; sf_type := ft; sf_deprecated := false |}).
    pose proof (K f eq_refl) as X. unfold kind_agrees in X. cbn [f sf_type] in X. rewrite E in X.
    destruct C as (t & Et & C). rewrite Et in X. destruct X as (vs & X). cbn in X. injection X as X. rewrite X in C. exact C.
  - intros ts ft M sub E C _ IH _ _. exists sub. auto.
  - exact H.
Qed.

(** Documents whose selections mean the same for all object types that may share a declaration *)
Theorem C03_partial : forall fuel cx c o d ws co P l,
  order_ok (cx_order cx) -> order_ok o -> consistent (cx_schema cx) -> proper_types (cx_schema cx) ->
  document_file fuel cx c o d ws co -> doc_root d = Some (P, l) -> is_subscription d = false ->
  frags_valid (cx_schema cx) (cx_frags cx) l ->
  regular (cx_schema cx) (cx_frags cx) P (fun x => In x l) ->
  exists m, written_as cx c d co m /\
    exact_keys (cx_schema cx) (cx_frags cx) (tf_decls m) P (fun x => In x l) (def_name d).
Proof.
  intros fuel cx c o d ws co P l O O' Co Pt H Dr Su Fv R.
  destruct (document_described _ _ _ _ _ _ _ _ _ O O' Co Pt H Dr Su Fv) as (op & ds & us & vds & vus & _ & _ & _ & _ & _ & _ & _ & _ & _ & _ & Et & X).
  exists (file_of c op (ds ++ vds) (co_globals co)). split; auto. cbn [file_of tf_decls].
  apply (des_exact c); auto. apply X; auto. intros x I. apply in_or_app. auto.
Qed.
Print Assumptions C03_partial.

(** *** Without that condition: the operation's own type is always exact *)
Lemma plan_objects c : forall pl ds us, rnd_plan c pl ds us ->
  forall T fs names path, In (IRComplex T fs, names, path) pl ->
  exists ms, In (DObj path ms) ds /\ List.map m_name ms = List.map irf_prop fs.
Proof.
  assert (F : forall fs names path ds ms us, rnd_fields c names path fs ds ms us -> List.map m_name ms = List.map irf_prop fs).
  { induction fs; intros names path ds ms us R; inversion R; subst; cbn; f_equal; eauto. }
  induction pl as [|y pl IH]; intros ds us R T fs names path I; [destruct I|]. inversion R; subst. destruct I as [E|I].
  - injection E as -> -> -> ->. exists ms. split; [|eauto]. apply in_or_app. left. apply in_or_app. right. left. reflexivity.
  - destruct (IH _ _ ltac:(eassumption) _ _ _ _ I) as (ms' & J & E). exists ms'. split; auto. apply in_or_app. auto.
Qed.
Lemma coll_exact_here c s frags D P M xs main ds us : proper_types s -> coll_ok s frags P M xs -> rnd_coll c xs main ds us -> incl ds D ->
  exact_here s frags D P M main.
Proof.
  intros Pt C R I.
  assert (Ne : xs <> []). { inversion R as [? ? ? ? Hx _|? ? ? ? Hx _]; subst; [auto|]. intros ->. apply Hx. reflexivity. }
  destruct (plan_groups s frags Pt P M xs main C Ne) as (A1 & A2 & A3 & A4 & A5).
  assert (Rp : exists ds' us', rnd_plan c (plan xs main) ds' us' /\ incl ds' D /\
     alternatives D main (List.map plan_name (plan xs main))).
  { inversion R as [? ? ? ? Hx Ho Rp|? ? ? ? Ho Rp]; subst.
    - exists ds, us. split; auto. split; auto. left. unfold plan. rewrite Ho. destruct xs; [congruence|reflexivity].
    - exists ds0, us. split; auto. split; [intros x J; apply I; apply in_or_app; auto|]. right. apply I. apply in_or_app. right. left. reflexivity. }
  destruct Rp as (ds' & us' & Rp & I' & Al).
  set (gs := List.map (fun x : planned => (snd x, snd (fst x), []) : group) (plan xs main)).
  assert (E1 : List.map (fun g : group => fst (fst g)) gs = List.map plan_name (plan xs main)).
  { unfold gs. rewrite map_map. reflexivity. }
  assert (E2 : flat_map (fun g : group => snd (fst g)) gs = flat_map (fun g : planned => snd (fst g)) (plan xs main)).
  { unfold gs. clear. induction (plan xs main) as [|y l IH]; cbn; congruence. }
  exists (List.map plan_name (plan xs main)). split; auto. intros T Po.
  pose proof (proj2 (A1 T) Po) as J. apply in_flat_map in J. destruct J as ([[[T0 fs] ts] n] & J & K). cbn [fst snd] in K.
  destruct (plan_objects c _ _ _ Rp _ _ _ _ J) as (ms & Im & Em). exists n, ms. split; [|split; [auto|]].
  - rewrite <- E1. apply (named_alternative main gs n ts [] T).
    + intros g Ig. unfold gs in Ig. apply in_map_iff in Ig. destruct Ig as (x & <- & Ix). unfold named. cbn [fst snd].
      destruct (A5 x Ix) as [[E Em']|E]; [left|right; exact E]. split; auto. unfold gs. rewrite E. reflexivity.
    + rewrite E2. exact A2.
    + eapply Pt; eauto.
    + unfold gs. apply in_map_iff. exists (IRComplex T0 fs, ts, n). auto.
    + exact K.
  - intros k. rewrite Em. destruct (A4 _ _ _ _ J) as (Jt & Jx & H). pose proof C as C0. inversion C0 as [P0 M0 xs0 So Nd Pp Fs]; subst.
    rewrite (keys_names s frags T0 P M fs (Fs _ _ Jx)). destruct (H T K) as (_ & [->|[S1 S2]]); [tauto|].
    split; intros Kk; [apply S1|apply S2]; auto. apply S1.
Qed.

Theorem C03_operation : forall fuel cx c o d ws co P l,
  order_ok (cx_order cx) -> order_ok o -> consistent (cx_schema cx) -> proper_types (cx_schema cx) ->
  document_file fuel cx c o d ws co -> doc_root d = Some (P, l) -> is_subscription d = false ->
  frags_valid (cx_schema cx) (cx_frags cx) l ->
  exists m, written_as cx c d co m /\
    exact_here (cx_schema cx) (cx_frags cx) (tf_decls m) P (fun x => In x l) (def_name d).
Proof.
  intros fuel cx c o d ws co P l O O' Co Pt H Dr Su Fv.
  destruct (document_described _ _ _ _ _ _ _ _ _ O O' Co Pt H Dr Su Fv) as (op & ds & us & vds & vus & _ & _ & _ & K & _ & _ & _ & Rn & _ & _ & Et & _).
  exists (file_of c op (ds ++ vds) (co_globals co)). split; auto. cbn [file_of tf_decls].
  eapply (coll_exact_here c); eauto. intros x I. apply in_or_app. auto.
Qed.
Print Assumptions C03_operation.

(** Non-vacuity: the hypotheses hold for a document with a spread, aliases and a narrowed interface *)
Example C03_nonvacuous : exists ws co m, document_file 20 (farm_cx [pet_name]) plain_config plain_order (query good_sels) ws co /\
  reads_as co m /\
  exact_keys farm (cx_frags (farm_cx [pet_name])) (tf_decls m) "Query" (fun x => In x good_sels) "Q".
Proof.
  destruct good_compiles as (ws & co & H & _). exists ws, co.
  destruct (C03_partial 20 (farm_cx [pet_name]) plain_config plain_order (query good_sels) ws co "Query" good_sels
    plain_ok plain_ok farm_consistent farm_proper H eq_refl eq_refl good_frags good_regular) as (m & E & K). exists m. split; auto. split; [exact (good_reads _ _ E)|auto].
Qed.

(** A valid document for which the keys are wrong: cats, dogs and eels share the type of [pet], made
    from what is selected for cats, so a dog's owner has [name] where the server sends [mood] *)
Theorem C03_refuted : exists cx c o l ws co m,
  order_ok (cx_order cx) /\ order_ok o /\ consistent (cx_schema cx) /\ proper_types (cx_schema cx) /\
  document_file 20 cx c o (query l) ws co /\ valid_sels (cx_schema cx) (cx_frags cx) "Query" l /\
  reads_as co m /\
  ~ exact_keys (cx_schema cx) (cx_frags cx) (tf_decls m) "Query" (fun x => In x l) "Q".
Proof.
  destruct split_compiles as (ws & co & H & E & _).
  exists (farm_cx []), plain_config, plain_order, split_sels, ws, co, split_module.
  split; [exact plain_ok|]. split; [exact plain_ok|]. split; [exact farm_consistent|]. split; [exact farm_proper|].
  split; auto. split; [exact split_valid|]. split; auto. cbn [farm_cx cx_schema cx_frags List.map]. intros K.
  assert (Al : forall main alts, alternatives (tf_decls split_module) main alts -> alts = [main]).
  { intros main alts [A|A]; auto. cbn in A. intuition discriminate. }
  assert (F1 : focc farm [] "Query" "Query" (fun x => In x split_sels) "pet" (match field_get farm "Query" "pet" with Some f => f | None => root_field end)
     [on 3 "Cat" [node 3 "owner" [leaf 3 "name"]]; on 4 "Dog" [node 4 "owner" [leaf 4 "mood"]]; on 5 "Eel" [node 5 "owner" [leaf 5 "name"]]]).
  { eexists _, _. split; [eapply (occ_field _ _ _ _ _ _ None); left; reflexivity|]. apply field_get_ok. reflexivity. }
  inversion K as [P M main alts A X]; subst. apply Al in A. subst alts.
  destruct (X "Query" (proj1 (possibles_ok farm "Query" "Query") (or_introl eq_refl))) as (n & ms & [[<-|[]] _] & I & _ & Y).
  cbn in I. destruct I as [I|[I|[I|[]]]]; try discriminate. injection I as <-.
  destruct (Y _ _ _ (or_introl eq_refl) F1) as (sub & Es & K2); [apply compositeb_ok; reflexivity|]. injection Es as <-. clear K X Y.
  cbn [ft_name sf_type field_get] in K2. clear F1.
  change (exact_keys farm [] (tf_decls split_module) "Pet" (merged (focc farm [] "Query" "Query" (fun x => In x split_sels)) "pet" "Pet") "Q_pet") in K2.
  set (M2 := merged _ "pet" "Pet") in K2.
  assert (F2 : focc farm [] "Dog" "Pet" M2 "owner" (match field_get farm "Dog" "owner" with Some f => f | None => root_field end) [leaf 4 "mood"]).
  { eexists "Dog", "owner". split; [|apply field_get_ok; reflexivity]. eapply (occ_inline _ _ _ _ _ (at_pos 4 3) "Dog" []).
    - eexists _, _. split; [eexists _, _; split; [eapply (occ_field _ _ _ _ _ _ None); left; reflexivity|apply field_get_ok; reflexivity]|].
      split; [reflexivity|]. right. left. reflexivity.
    - apply possibles_ok. left; reflexivity.
    - eapply (occ_field _ _ _ _ _ _ None); left; reflexivity. }
  inversion K2 as [P M main alts A X]; subst. apply Al in A. subst alts.
  destruct (X "Dog" (proj1 (possibles_ok farm "Pet" "Dog") (or_introl eq_refl))) as (n & ms & [[<-|[]] _] & I & _ & Y).
  cbn in I. destruct I as [I|[I|[I|[]]]]; try discriminate. injection I as <-.
  destruct (Y _ _ _ (or_introl eq_refl) F2) as (sub & Es & K3); [apply compositeb_ok; reflexivity|]. injection Es as <-. clear X Y K2.
  change (exact_keys farm [] (tf_decls split_module) "User" (merged (focc farm [] "Dog" "Pet" M2) "owner" "User") "Q_pet_owner") in K3.
  inversion K3 as [P M main alts A X]; subst. apply Al in A. subst alts.
  destruct (X "User" (proj1 (possibles_ok farm "User" "User") (or_introl eq_refl))) as (n & ms & [[<-|[]] _] & I & Z & _).
  cbn in I. destruct I as [I|[I|[I|[]]]]; try discriminate. injection I as <-.
  enough (J : In "mood" ["name"]) by (destruct J as [J|[]]; discriminate). apply (proj2 (Z "mood")).
  eexists _, []. eexists "User", "mood". split; [|apply field_get_ok; reflexivity].
  eapply (occ_field _ _ _ _ _ _ None). eexists _, _. split; [exact F2|]. split; [reflexivity|left; reflexivity].
Qed.
Print Assumptions C03_refuted.
