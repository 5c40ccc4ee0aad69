(** C23: the globals import is exact. *)
From Verif Require Import DeclFacts RegCheck ShareWorlds.

Section Enums.
  Variable s : schema.
  Variable frags : amap string fragdef.

  (** [e] is the enum type of a field that is selected for some object type, at some depth *)
  Inductive selected : string -> selset -> string -> Prop :=
  | sel_here P (M : selset) T k f ss : possible s P T -> focc s frags T P M k f ss ->
      ft_def (sf_type f) = FDEnum -> selected P M (ft_name (sf_type f))
  | sel_sub P (M : selset) T k f ss e : possible s P T -> focc s frags T P M k f ss -> composite s (ft_name (sf_type f)) ->
      selected (ft_name (sf_type f)) (merged (focc s frags T P M) k (ft_name (sf_type f))) e -> selected P M e.

  Lemma selected_alike P M e : selected P M e -> forall M', alike s frags same_type P M M' -> selected P M' e.
  Proof.
    induction 1 as [P M T k f ss Po F D|P M T k f ss e Po F C _ IH]; intros M' A; inversion A as [P0 M0 M0' A1 A2 A3]; subst.
    - destruct (A1 _ _ _ _ Po F) as (f' & ss' & F' & E). unfold same_type in E. rewrite E. eapply sel_here; eauto. congruence.
    - destruct (A1 _ _ _ _ Po F) as (f' & ss' & F' & E). unfold same_type in E.
      eapply sel_sub; eauto; rewrite <- E; auto. apply IH. eapply A3; eauto.
  Qed.

  (** What one occurrence, and the occurrences of one object type, select *)
  Definition sel_type (ft : ftype) (M : selset) (e : string) : Prop :=
    ft_def ft = FDEnum /\ e = ft_name ft \/ composite s (ft_name ft) /\ selected (ft_name ft) M e.
  Definition sel_occ (O : occset) (e : string) : Prop :=
    exists k f ss, O k f ss /\ sel_type (sf_type f) (merged O k (ft_name (sf_type f))) e.
  Lemma selected_occ P M e : selected P M e <-> exists T, possible s P T /\ sel_occ (focc s frags T P M) e.
  Proof.
    split.
    - intros H. inversion H; subst; exists T; (split; [auto|]); exists k, f, ss; (split; [auto|]); [left|right]; auto.
    - intros (T & Po & k & f & ss & F & [[D ->]|[C S]]); [eapply sel_here|eapply sel_sub]; eauto.
  Qed.
End Enums.

Section Uses.
  Variable c : cconfig.
  Variable s : schema.
  Variable frags : amap string fragdef.
  Hypothesis cons_ok : consistent s.
  Hypothesis types_ok : proper_types s.
  Notation focc := (focc s frags).

  Definition entry_ok (O : occset) (x : string * sfield * irtype) : Prop :=
    kind_agrees s (snd (fst x)) /\ ty_ok s frags (snd (fst x)) (merged O (fst (fst x)) (ft_name (sf_type (snd (fst x))))) (snd x).

  (** Every global type used is the enum of a selected field *)
  Lemma uses_selected :
    (forall names path t ds e us, rnd_type c names path t ds e us -> forall f M, ty_ok s frags f M t -> kind_agrees s f ->
       forall x, In x us -> sel_type s frags (sf_type f) M x) /\
    (forall names path fs ds ms us, rnd_fields c names path fs ds ms us -> forall O es, fs = List.map mk_irfield es ->
       Forall (entry_ok O) es -> forall x, In x us -> exists k f t, In (k, f, t) es /\
         sel_type s frags (sf_type f) (merged O k (ft_name (sf_type f))) x) /\
    (forall pl ds us, rnd_plan c pl ds us -> forall P M,
       (forall T fs names path, In (IRComplex T fs, names, path) pl -> fields_ok s frags (focc T P M) fs) ->
       forall x, In x us -> exists T fs names path, In (IRComplex T fs, names, path) pl /\ sel_occ s frags (focc T P M) x) /\
    (forall xs main ds us, rnd_coll c xs main ds us -> forall P M, coll_ok s frags P M xs ->
       forall x, In x us -> selected s frags P M x).
  Proof.
    assert (Pl : forall P M xs main us, coll_ok s frags P M xs -> xs <> [] ->
      ((forall T fs names path, In (IRComplex T fs, names, path) (plan xs main) -> fields_ok s frags (focc T P M) fs) ->
       forall x, In x us -> exists T fs names path, In (IRComplex T fs, names, path) (plan xs main) /\ sel_occ s frags (focc T P M) x) ->
      forall x, In x us -> selected s frags P M x).
    { intros P M xs main us C Ne IH x I. destruct (plan_groups s frags types_ok P M xs main C Ne) as (_ & _ & _ & A4 & _).
      destruct (IH) with (x := x) as (T & fs & names & path & J & S); auto.
      - intros T fs names path J. destruct (A4 _ _ _ _ J) as (_ & K & _). inversion C; auto.
      - apply selected_occ. exists T. split; auto. destruct (A4 _ _ _ _ J) as (K & _ & H). apply (H T K). }
    apply (rnd_mutind c
      (fun names path t ds e us _ => forall f M, ty_ok s frags f M t -> kind_agrees s f -> forall x, In x us -> sel_type s frags (sf_type f) M x)
      (fun names path fs ds ms us _ => forall O es, fs = List.map mk_irfield es ->
       Forall (entry_ok O) es -> forall x, In x us -> exists k f t, In (k, f, t) es /\ sel_type s frags (sf_type f) (merged O k (ft_name (sf_type f))) x)
      (fun pl ds us _ => forall P M, (forall T fs names path, In (IRComplex T fs, names, path) pl -> fields_ok s frags (focc T P M) fs) ->
       forall x, In x us -> exists T fs names path, In (IRComplex T fs, names, path) pl /\ sel_occ s frags (focc T P M) x)
      (fun xs main ds us _ => forall P M, coll_ok s frags P M xs -> forall x, In x us -> selected s frags P M x)).
    - intros names path f M _ _ x [].
    - intros names path n f M Ty _ x [<-|[]]. inversion Ty; subst. left. auto.
    - intros names path sc f M _ _ x [].
    - intros names path xs ds us _ IH f M Ty K x I. inversion Ty; subst. right. split; [apply kind_composite; auto|eauto].
    - intros names path O es _ _ x [].
    - intros names path k d dp l r t fs ds e us ds' ms us' _ IH _ IH' O es E F x I.
      destruct es as [|[[k0 f0] t0] es]; [discriminate|]. cbn [List.map mk_irfield] in E. injection E as -> -> -> -> -> -> E.
      inversion F as [|? ? [K Ty] F']; subst. apply in_app_or in I. destruct I as [I|I].
      + exists k0, f0, t0. split; [left; auto|]. apply (IH f0 _ Ty K x I).
      + destruct (IH' O es eq_refl F' x I) as (k & f & t & J & S). exists k, f, t. split; [right; auto|auto].
    - intros P M _ x [].
    - intros T fs names path pl ds ms us ds' us' _ IH _ IH' P M H x I. apply in_app_or in I. destruct I as [I|I].
      + pose proof (H _ _ _ _ (or_introl eq_refl)) as F. inversion F as [O es So Nd Fo Ty Cv]; subst.
        destruct (IH (focc T P M) es eq_refl) with (x := x) as (k & f & t & J & S); auto.
        * apply Forall_forall. intros [[k f] t] J. destruct (Fo _ _ _ J) as (ss & P' & n & _ & Fk). split; [eapply cons_ok; exact Fk|]. exact (Ty _ _ _ J).
        * exists T, (List.map mk_irfield es), names, path. split; [left; auto|]. destruct (Fo _ _ _ J) as (ss & Fk). exists k, f, ss. auto.
      + destruct (IH' P M) with (x := x) as (T' & fs' & names' & path' & J & S); auto.
        * intros; eapply H; right; eauto.
        * exists T', fs', names', path'. split; [right; auto|auto].
    - intros xs main ds us Ne Ho _ IH P M C. apply (Pl P M xs main us C Ne). intros Fo. exact (IH P M Fo).
    - intros xs main ds us Ho _ IH P M C. assert (Ne : xs <> []) by (intros ->; apply Ho; reflexivity).
      apply (Pl P M xs main us C Ne). intros Fo. exact (IH P M Fo).
  Qed.

  (** In regular documents, every selected enum is used *)
  Lemma selected_uses :
    (forall names path t ds e us, rnd_type c names path t ds e us -> forall f M, ty_ok s frags f M t -> kind_agrees s f ->
       (composite s (ft_name (sf_type f)) -> regular s frags (ft_name (sf_type f)) M) ->
       forall x, sel_type s frags (sf_type f) M x -> In x us) /\
    (forall names path fs ds ms us, rnd_fields c names path fs ds ms us -> forall O es, fs = List.map mk_irfield es ->
       Forall (entry_ok O) es -> (forall k f t, In (k, f, t) es -> composite s (ft_name (sf_type f)) ->
          regular s frags (ft_name (sf_type f)) (merged O k (ft_name (sf_type f)))) ->
       forall k f t x, In (k, f, t) es -> sel_type s frags (sf_type f) (merged O k (ft_name (sf_type f))) x -> In x us) /\
    (forall pl ds us, rnd_plan c pl ds us -> forall P M,
       (forall T fs names path, In (IRComplex T fs, names, path) pl -> fields_ok s frags (focc T P M) fs /\ reg_occ s frags (focc T P M)) ->
       forall x T fs names path, In (IRComplex T fs, names, path) pl -> sel_occ s frags (focc T P M) x -> In x us) /\
    (forall xs main ds us, rnd_coll c xs main ds us -> forall P M, coll_ok s frags P M xs -> regular s frags P M ->
       forall x, selected s frags P M x -> In x us).
  Proof.
    assert (Pl : forall P M xs main us, coll_ok s frags P M xs -> xs <> [] -> regular s frags P M ->
      ((forall T fs names path, In (IRComplex T fs, names, path) (plan xs main) -> fields_ok s frags (focc T P M) fs /\ reg_occ s frags (focc T P M)) ->
       forall x T fs names path, In (IRComplex T fs, names, path) (plan xs main) -> sel_occ s frags (focc T P M) x -> In x us) ->
      forall x, selected s frags P M x -> In x us).
    { intros P M xs main us C Ne R IH x S. destruct (plan_groups s frags types_ok P M xs main C Ne) as (A1 & _ & _ & A4 & _).
      specialize (IH (plan_rep s frags types_ok P M xs main C R)). apply selected_occ in S. destruct S as (T & Po & S).
      pose proof (proj2 (A1 T) Po) as I. apply in_flat_map in I. destruct I as ([[[T0 fs] ts] n] & I & J). cbn [fst snd] in J.
      destruct (A4 _ _ _ _ I) as (_ & _ & H). destruct (H T J) as (_ & [->|[S1 S2]]); [eapply IH; eauto|].
      eapply IH; [exact I|]. inversion R as [P0 M0 R1 R2 R3]; subst. destruct S as (k & f & ss & F & St).
      destruct S2 as [S2a S2]. destruct (S2 k (ex_intro _ f (ex_intro _ ss F)) T0 (proj1 S1)) as (f0 & ss0 & F0).
      destruct (R2 T T0 k f ss f0 ss0 (conj S2a S2) S1 F F0) as [E Al]. exists k, f0, ss0. split; auto.
      rewrite <- E. destruct St as [St|[Cp St]]; [left; auto|right]. split; auto. eapply selected_alike; eauto. }
    apply (rnd_mutind c
      (fun names path t ds e us _ => forall f M, ty_ok s frags f M t -> kind_agrees s f ->
       (composite s (ft_name (sf_type f)) -> regular s frags (ft_name (sf_type f)) M) -> forall x, sel_type s frags (sf_type f) M x -> In x us)
      (fun names path fs ds ms us _ => forall O es, fs = List.map mk_irfield es ->
       Forall (entry_ok O) es -> (forall k f t, In (k, f, t) es -> composite s (ft_name (sf_type f)) ->
          regular s frags (ft_name (sf_type f)) (merged O k (ft_name (sf_type f)))) ->
       forall k f t x, In (k, f, t) es -> sel_type s frags (sf_type f) (merged O k (ft_name (sf_type f))) x -> In x us)
      (fun pl ds us _ => forall P M,
       (forall T fs names path, In (IRComplex T fs, names, path) pl -> fields_ok s frags (focc T P M) fs /\ reg_occ s frags (focc T P M)) ->
       forall x T fs names path, In (IRComplex T fs, names, path) pl -> sel_occ s frags (focc T P M) x -> In x us)
      (fun xs main ds us _ => forall P M, coll_ok s frags P M xs -> regular s frags P M -> forall x, selected s frags P M x -> In x us)).
    - intros names path f M Ty K R x [[D _]|[C _]]; inversion Ty; subst; [congruence|]. unfold kind_agrees in K.
      match goal with A : ft_def _ = _ |- _ => rewrite A in K end. contradiction.
    - intros names path n f M Ty K R x [[D ->]|[C _]]; inversion Ty; subst; [left; auto|]. unfold kind_agrees in K.
      match goal with A : ft_def _ = _ |- _ => rewrite A in K end. destruct K as (vs & K). destruct C as (t & E & C). rewrite E in K. cbn in K. injection K as K. rewrite K in C. contradiction.
    - intros names path sc f M Ty K R x [[D _]|[C _]]; inversion Ty; subst; [congruence|]. unfold kind_agrees in K.
      match goal with A : ft_def _ = _ |- _ => rewrite A in K end. contradiction.
    - intros names path xs ds us _ IH f M Ty K R x [[D _]|[C S]]; inversion Ty; subst; eauto.
      rewrite D in *. discriminate.
    - intros names path O es E _ _ k f t x I. destruct es; [destruct I|discriminate].
    - intros names path k d dp l r t fs ds e us ds' ms us' _ IH _ IH' O es E F Rg k1 f1 t1 x I S.
      destruct es as [|[[k0 f0] t0] es]; [discriminate|]. cbn [List.map mk_irfield] in E. injection E as -> -> -> -> -> -> E.
      inversion F as [|? ? [K Ty] F']; subst. apply in_or_app. destruct I as [I|I].
      + injection I as -> -> ->. left. apply (IH f1 _ Ty K); auto. apply (Rg k1 f1 t1). left; auto.
      + right. eapply (IH' O es eq_refl F'); eauto. intros; eapply Rg; [right|]; eauto.
    - intros P M _ x T fs names path [].
    - intros T fs names path pl ds ms us ds' us' _ IH _ IH' P M H x T1 fs1 n1 p1 I S. apply in_or_app. destruct I as [I|I].
      + injection I as <- <- <- <-. left. destruct (H _ _ _ _ (or_introl eq_refl)) as [F [R1 R2]]. inversion F as [O es So Nd Fo Ty Cv]; subst.
        destruct S as (k & f & ss & Fk & St). destruct (Cv _ _ _ Fk) as (f' & t & J & En).
        destruct (Fo _ _ _ J) as (ss' & Fk'). pose proof (R1 _ _ _ _ _ Fk Fk') as E. rewrite E in St.
        eapply (IH (focc T P M) es eq_refl); eauto.
        * apply Forall_forall. intros [[k2 f2] t2] J2. destruct (Fo _ _ _ J2) as (ss2 & P' & n & _ & Fk2). split; [eapply cons_ok; exact Fk2|]. exact (Ty _ _ _ J2).
        * intros k2 f2 t2 J2 C. destruct (Fo _ _ _ J2) as (ss2 & Fk2). eapply R2; eauto.
      + right. eapply IH'; eauto. intros; eapply H; right; eauto.
    - intros xs main ds us Ne Ho _ IH P M C R. apply (Pl P M xs main us C Ne R). intros Fo. exact (IH P M Fo).
    - intros xs main ds us Ho _ IH P M C R. assert (Ne : xs <> []) by (intros ->; apply Ho; reflexivity).
      apply (Pl P M xs main us C Ne R). intros Fo. exact (IH P M Fo).
  Qed.
End Uses.

(** Global types of the variables *)
Definition used_by_variables (s : schema) (d : definition) (x : string) : Prop :=
  exists v, In v (doc_vars d) /\ x = gbase (vgtype v) /\ is_builtin x = false /\
    exists t, get_type s x = Some t /\ forall m, st_def t <> TScalar m.
Lemma var_uses c s d op vds vus : Forall (fun v => valid_gtype (vgtype v) = true) (doc_vars d) ->
  try_build_variable_ir s (doc_vars d) = Ok (op_variables op) -> r_variables c s op = Ok (vds, vus) ->
  forall x, In x vus <-> used_by_variables s d x.
Proof.
  intros V Ev Rv x. unfold used_by_variables. unfold r_variables, try_build_variable_ir in *. destruct (doc_vars d) as [|v vs] eqn:Ed.
  - injection Ev as Ev. rewrite <- Ev in Rv. injection Rv as <- <-. split; [intros []|intros (v & [] & _)].
  - destruct (collect_res (List.map (build_variable s) (v :: vs))) as [r|] eqn:Ec; [|discriminate]. injection Ev as Ev. rewrite <- Ev in Rv.
    assert (G : Forall (good_var s) (v :: vs)).
    { apply Forall_forall. intros y I. destruct (good_dec s y) as [|N]; auto. exfalso. rewrite Forall_forall in V.
      destruct (build_bad s y (V y I) N) as (e & E & _).
      apply collect_res_Ok in Ec. assert (J : In (Err e) (List.map (build_variable s) (v :: vs))) by (rewrite <- E; apply in_map; auto).
      rewrite Ec in J. apply in_map_iff in J. destruct J as (z & Ez & _). discriminate. }
    destruct (vars_written c s (v :: vs) r V G Ec) as (rs & us & E1 & Hu & _). rewrite E1 in Rv. injection Rv as _ <-.
    rewrite Hu. unfold var_global. split; intros (y & A & B & C); exists y; auto.
Qed.

Definition imported (P : string) (l : list selection) (cx : ctx) (d : definition) (x : string) : Prop :=
  selected (cx_schema cx) (cx_frags cx) P (fun x => In x l) x \/ used_by_variables (cx_schema cx) d x.

Lemma globals_spec us vus x : In x (sort_by (fun x => x) (sunion [] (us ++ vus))) <-> In x us \/ In x vus.
Proof.
  rewrite <- in_app_iff. split; intros I.
  - eapply Permutation_in in I; [|symmetry; apply sort_by_perm]. apply In_sunion in I. destruct I as [[]|I]; auto.
  - eapply Permutation_in; [apply sort_by_perm|]. apply In_sunion. auto.
Qed.

(** Nothing else is imported; the import is sorted, without repetition, and is what the file
    contributes to the globals file *)
Theorem C23_only : forall fuel cx c o d ws co P l,
  order_ok (cx_order cx) -> order_ok o -> consistent (cx_schema cx) -> proper_types (cx_schema cx) ->
  document_file fuel cx c o d ws co -> doc_root d = Some (P, l) -> is_subscription d = false ->
  frags_valid (cx_schema cx) (cx_frags cx) l -> Forall (fun v => valid_gtype (vgtype v) = true) (doc_vars d) ->
  exists m, written_as cx c d co m /\
    (forall x, In x (tf_globals m) -> imported P l cx d x) /\
    sorted_by (fun x => x) (tf_globals m) /\ NoDup (tf_globals m) /\ Permutation (tf_globals m) (co_globals co).
Proof.
  intros fuel cx c o d ws co P l O O' Co Pt H Dr Su Fv V.
  destruct (document_described _ _ _ _ _ _ _ _ _ O O' Co Pt H Dr Su Fv) as (op & ds & us & vds & vus & _ & _ & _ & K & _ & _ & Ev & Rn & Rv & Eg & Et & _).
  exists (file_of c op (ds ++ vds) (co_globals co)). split; auto. cbn [file_of tf_globals].
  split; [|split; [apply sort_by_sorted|split]].
  - intros x. rewrite Eg, globals_spec. intros [I|I].
    + left. destruct (uses_selected c (cx_schema cx) (cx_frags cx) Co Pt) as (_ & _ & _ & X). eapply X; eauto.
    + right. eapply var_uses; eauto.
  - eapply Permutation_NoDup; [apply sort_by_perm|]. rewrite Eg. apply NoDup_sunion. constructor.
  - symmetry. apply sort_by_perm.
Qed.
Print Assumptions C23_only.

(** In regular documents the import is exact *)
Theorem C23_partial : forall fuel cx c o d ws co P l,
  order_ok (cx_order cx) -> order_ok o -> consistent (cx_schema cx) -> proper_types (cx_schema cx) ->
  document_file fuel cx c o d ws co -> doc_root d = Some (P, l) -> is_subscription d = false ->
  frags_valid (cx_schema cx) (cx_frags cx) l -> Forall (fun v => valid_gtype (vgtype v) = true) (doc_vars d) ->
  regular (cx_schema cx) (cx_frags cx) P (fun x => In x l) ->
  exists m, written_as cx c d co m /\
    (forall x, In x (tf_globals m) <-> imported P l cx d x) /\
    sorted_by (fun x => x) (tf_globals m) /\ NoDup (tf_globals m) /\ Permutation (tf_globals m) (co_globals co).
Proof.
  intros fuel cx c o d ws co P l O O' Co Pt H Dr Su Fv V R.
  destruct (document_described _ _ _ _ _ _ _ _ _ O O' Co Pt H Dr Su Fv) as (op & ds & us & vds & vus & _ & _ & _ & K & _ & _ & Ev & Rn & Rv & Eg & Et & _).
  exists (file_of c op (ds ++ vds) (co_globals co)). split; auto. cbn [file_of tf_globals].
  split; [|split; [apply sort_by_sorted|split]].
  - intros x. rewrite Eg, globals_spec. rewrite (var_uses _ _ _ _ _ _ V Ev Rv x). unfold imported. split; intros [I|I]; auto; left.
    + destruct (uses_selected c (cx_schema cx) (cx_frags cx) Co Pt) as (_ & _ & _ & X). eapply X; eauto.
    + destruct (selected_uses c (cx_schema cx) (cx_frags cx) Co Pt) as (_ & _ & _ & X). eapply X; eauto.
  - eapply Permutation_NoDup; [apply sort_by_perm|]. rewrite Eg. apply NoDup_sunion. constructor.
  - symmetry. apply sort_by_perm.
Qed.
Print Assumptions C23_partial.

(** Non-vacuity: two enums at different depths *)
Example C23_nonvacuous : exists ws co m, document_file 20 (farm_cx [pet_name]) plain_config plain_order (query good_sels) ws co /\
  reads_as co m /\ tf_globals m = ["Mood"; "Size"] /\
  forall x, In x (tf_globals m) <-> imported "Query" good_sels (farm_cx [pet_name]) (query good_sels) x.
Proof.
  destruct good_compiles as (ws & co & H & G). exists ws, co.
  destruct (C23_partial 20 (farm_cx [pet_name]) plain_config plain_order (query good_sels) ws co "Query" good_sels
    plain_ok plain_ok farm_consistent farm_proper H eq_refl eq_refl good_frags ltac:(constructor) good_regular) as (m & E & K & So & Nd & Pe).
  exists m. split; auto. split; [exact (good_reads _ _ E)|]. split; auto. rewrite G in Pe. apply sorted_strings_eq; auto.
  - repeat constructor.
  - rewrite Pe. apply perm_swap.
Qed.

(** A selected enum that is not imported: the mood of the dog's owner *)
Theorem C23_refuted : exists cx c o l ws co m,
  order_ok (cx_order cx) /\ order_ok o /\ consistent (cx_schema cx) /\ proper_types (cx_schema cx) /\
  document_file 20 cx c o (query l) ws co /\ valid_sels (cx_schema cx) (cx_frags cx) "Query" l /\
  reads_as co m /\
  selected (cx_schema cx) (cx_frags cx) "Query" (fun x => In x l) "Mood" /\ tf_globals m = [] /\ co_globals co = [].
Proof.
  destruct split_compiles as (ws & co & H & E & G).
  exists (farm_cx []), plain_config, plain_order, split_sels, ws, co, split_module.
  split; [exact plain_ok|]. split; [exact plain_ok|]. split; [exact farm_consistent|]. split; [exact farm_proper|].
  split; auto. split; [exact split_valid|]. split; auto. cbn [farm_cx cx_schema cx_frags List.map]. split; [|split; [reflexivity|exact G]].
  assert (F1 : focc farm [] "Query" "Query" (fun x => In x split_sels) "pet" (match field_get farm "Query" "pet" with Some f => f | None => root_field end)
     [on 3 "Cat" [node 3 "owner" [leaf 3 "name"]]; on 4 "Dog" [node 4 "owner" [leaf 4 "mood"]]; on 5 "Eel" [node 5 "owner" [leaf 5 "name"]]]).
  { eexists _, _. split; [eapply (occ_field _ _ _ _ _ _ None); left; reflexivity|]. apply field_get_ok. reflexivity. }
  eapply sel_sub; [apply possibles_ok; left; reflexivity|exact F1|apply compositeb_ok; reflexivity|].
  cbn [field_get].
  eapply (sel_sub _ _ _ _ "Dog" "owner" (match field_get farm "Dog" "owner" with Some f => f | None => root_field end) [leaf 4 "mood"]).
  - apply possibles_ok. left. reflexivity.
  - eexists "Dog", "owner". split; [|apply field_get_ok; reflexivity]. eapply (occ_inline _ _ _ _ _ (at_pos 4 3) "Dog" []).
    + eexists _, _. split; [exact F1|]. split; [reflexivity|]. right. left. reflexivity.
    + apply possibles_ok. left; reflexivity.
    + eapply (occ_field _ _ _ _ _ _ None); left; reflexivity.
  - apply compositeb_ok. reflexivity.
  - eapply (sel_here _ _ _ _ "User" "mood" (match field_get farm "User" "mood" with Some f => f | None => root_field end) []).
    + apply possibles_ok. left. reflexivity.
    + eexists "User", "mood". split; [|apply field_get_ok; reflexivity]. eapply (occ_field _ _ _ _ _ _ None).
      exists (match field_get farm "Dog" "owner" with Some f => f | None => root_field end), [leaf 4 "mood"]. split; [|split; [reflexivity|left; reflexivity]].
      eexists "Dog", "owner". split; [|apply field_get_ok; reflexivity]. eapply (occ_inline _ _ _ _ _ (at_pos 4 3) "Dog" []).
      * eexists _, _. split; [exact F1|]. split; [reflexivity|]. right. left. reflexivity.
      * apply possibles_ok. left; reflexivity.
      * eapply (occ_field _ _ _ _ _ _ None); left; reflexivity.
    + reflexivity.
Qed.
Print Assumptions C23_refuted.
