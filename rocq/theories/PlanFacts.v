(** The renderer as a relation: which declarations stand for a collection of possible types. *)
From Verif Require Export RenderFacts SpecShape IrFacts.

(** *** Which possible types get a declaration of their own *)
Definition common_names (xs : list ircomplex) : list string :=
  match xs with
  | [] => []
  | x :: others => fold_left (fun cm y => filter (fun n => smem n (field_ids y)) cm) others (field_ids x)
  end.
Definition is_shared (xs : list ircomplex) (x : ircomplex) : bool := set_eqb (common_names xs) (field_ids x).
Definition shared (xs : list ircomplex) : list ircomplex := filter (is_shared xs) xs.
Definition own (xs : list ircomplex) : list ircomplex := filter (fun x => negb (is_shared xs x)) xs.
Definition other_name (main : string) : string := main +++ "_$$other".
Definition own_name (main : string) (x : ircomplex) : string := main +++ "_" +++ irc_name x.

(** A planned declaration: representative, concrete types it stands for, name *)
Definition planned : Type := (ircomplex * list string * string)%type.
Definition plan (xs : list ircomplex) (main : string) : list planned :=
  match own xs with
  | [] => match xs with [] => [] | x :: _ => [(x, List.map irc_name xs, main)] end
  | _ => List.map (fun x => (x, [irc_name x], own_name main x)) (own xs) ++
         match rev (shared xs) with
         | [] => []
         | x :: _ => [(x, List.map irc_name (shared xs), other_name main)]
         end
  end.
Definition plan_name (x : planned) : string := snd x.

(** *** The rendering relation *)
Inductive rnd_type (c : cconfig) : list string -> string -> irtype -> list decl -> texpr -> list string -> Prop :=
| rt_typename names path : rnd_type c names path ITypeName [] (lit_union names) []
| rt_enum names path n : rnd_type c names path (IEnum n) [] (XName n) [n]
| rt_scalar names path sc : rnd_type c names path (IScalar sc) [] (XName (scalar_ts c sc)) []
| rt_complex names path xs ds us : rnd_coll c xs path ds us -> rnd_type c names path (IComplex xs) ds (XName path) us
with rnd_fields (c : cconfig) : list string -> string -> list irfield -> list decl -> list member -> list string -> Prop :=
| rf_nil names path : rnd_fields c names path [] [] [] []
| rf_cons names path k d dp l r t fs ds e us ds' ms us' :
    rnd_type c names (path +++ "_" +++ k) t ds e us -> rnd_fields c names path fs ds' ms us' ->
    rnd_fields c names path (IRField k d dp l r t :: fs) (ds ++ ds') (r_member c k d dp l r e :: ms) (us ++ us')
with rnd_plan (c : cconfig) : list planned -> list decl -> list string -> Prop :=
| rp_nil : rnd_plan c [] [] []
| rp_cons T fs names path pl ds ms us ds' us' :
    rnd_fields c names path fs ds ms us -> rnd_plan c pl ds' us' ->
    rnd_plan c ((IRComplex T fs, names, path) :: pl) ((ds ++ [DObj path ms]) ++ ds') (us ++ us')
with rnd_coll (c : cconfig) : list ircomplex -> string -> list decl -> list string -> Prop :=
| rc_whole xs main ds us : xs <> [] -> own xs = [] -> rnd_plan c (plan xs main) ds us -> rnd_coll c xs main ds us
| rc_split xs main ds us : own xs <> [] -> rnd_plan c (plan xs main) ds us ->
    rnd_coll c xs main (ds ++ [DAlias main (List.map plan_name (plan xs main))]) us.

Scheme rnd_type_mut := Induction for rnd_type Sort Prop
  with rnd_fields_mut := Induction for rnd_fields Sort Prop
  with rnd_plan_mut := Induction for rnd_plan Sort Prop
  with rnd_coll_mut := Induction for rnd_coll Sort Prop.
Combined Scheme rnd_mutind from rnd_type_mut, rnd_fields_mut, rnd_plan_mut, rnd_coll_mut.

(** *** Facts about plans *)
Lemma own_in xs x : In x (own xs) <-> In x xs /\ is_shared xs x = false.
Proof. unfold own. rewrite filter_In. destruct (is_shared xs x); cbn; intuition discriminate. Qed.
Lemma shared_in xs x : In x (shared xs) <-> In x xs /\ is_shared xs x = true.
Proof. unfold shared. rewrite filter_In. tauto. Qed.
Lemma own_nil xs : own xs = [] <-> forall x, In x xs -> is_shared xs x = true.
Proof.
  split.
  - intros E x I. destruct (is_shared xs x) eqn:S; auto.
    assert (X : In x (own xs)) by (apply own_in; auto). rewrite E in X. destruct X.
  - intros H. destruct (own xs) as [|x l] eqn:E; auto.
    assert (X : In x (own xs)) by (rewrite E; left; auto). apply own_in in X. destruct X as [I F]. rewrite H in F; auto. discriminate.
Qed.
Lemma own_nil_shared xs : own xs = [] -> shared xs = xs.
Proof.
  intros E. pose proof (proj1 (own_nil xs) E) as H. unfold shared. clear E.
  assert (X : forall l, (forall x, In x l -> is_shared xs x = true) -> filter (is_shared xs) l = l).
  { induction l as [|x l IH]; intros Hl; cbn [filter]; auto. rewrite Hl by (left; auto). f_equal. apply IH.
    intros y I. apply Hl. right; auto. }
  apply X. auto.
Qed.
Lemma set_eqb_spec a b : set_eqb a b = true <-> forall n, In n a <-> In n b.
Proof.
  unfold set_eqb. rewrite andb_true_iff, !forallb_forall. split.
  - intros [A B] n. split; intros I; [apply A in I|apply B in I]; apply smem_spec in I; auto.
  - intros H. split; intros n I; apply smem_spec; apply H; auto.
Qed.
Lemma common_spec xs n : xs <> [] -> (In n (common_names xs) <-> forall x, In x xs -> In n (field_ids x)).
Proof.
  destruct xs as [|x others]; [congruence|]. intros _. cbn [common_names].
  assert (X : forall cm, In n (fold_left (fun cm y => filter (fun n => smem n (field_ids y)) cm) others cm) <->
    In n cm /\ forall y, In y others -> In n (field_ids y)).
  { induction others as [|y l IH]; intros cm; cbn [fold_left].
    - split; [intros; split; auto; intros y []|tauto].
    - rewrite IH, filter_In, smem_spec. split.
      + intros [[A B] C]. split; auto. intros z [<-|I]; auto.
      + intros [A B]. repeat split; auto; [apply B; left; auto|intros z I; apply B; right; auto]. }
  rewrite X. split.
  - intros [A B] y [<-|I]; auto.
  - intros H. split; [apply H; left; auto|intros y I; apply H; right; auto].
Qed.
Lemma field_ids_spec x n : In n (field_ids x) <-> In n (List.map irf_prop (irc_fields x)).
Proof. unfold field_ids. rewrite In_sunion. cbn. tauto. Qed.
(** A type is shared iff all its properties are common to all types *)
Lemma is_shared_spec xs x : In x xs ->
  (is_shared xs x = true <-> forall n, In n (List.map irf_prop (irc_fields x)) ->
     forall y, In y xs -> In n (List.map irf_prop (irc_fields y))).
Proof.
  intros I. unfold is_shared. rewrite set_eqb_spec.
  assert (Ne : xs <> []) by (destruct xs; [destruct I|discriminate]). split.
  - intros H n In_ y Iy. apply field_ids_spec. apply field_ids_spec in In_. apply H in In_. rewrite common_spec in In_; auto.
  - intros H n. rewrite common_spec by auto. split.
    + intros A. apply A. auto.
    + intros A y Iy. apply field_ids_spec. eapply H; eauto. apply field_ids_spec. auto.
Qed.
Lemma own_single x : own [x] = [].
Proof.
  apply own_nil. intros y [<-|[]]. apply is_shared_spec; [left; auto|]. intros n I z [<-|[]]. auto.
Qed.

(** *** From the functional renderer to the relation *)
Lemma sort_sorted_names (l : list string) : sorted_by (fun x => x) l -> sort_by (fun x => x) l = l.
Proof.
  intros H. apply sorted_strings_eq; [apply sort_by_sorted|exact H|]. symmetry. apply sort_by_perm.
Qed.
Lemma sorted_filter {A} (key : A -> string) b l : sorted_by key l -> sorted_by key (filter b l).
Proof.
  induction 1 as [|x l S IH F]; cbn [filter]; [constructor|]. destruct (b x); auto. constructor; auto.
  apply Forall_forall. intros y I. apply filter_In in I. rewrite Forall_forall in F. apply F. tauto.
Qed.
Lemma sorted_map {A} (key : A -> string) l : sorted_by key l -> sorted_by (fun x => x) (List.map key l).
Proof.
  induction 1 as [|x l S IH F]; cbn; [constructor|]. constructor; auto.
  apply Forall_forall. intros y I. apply in_map_iff in I. destruct I as (z & <- & I). rewrite Forall_forall in F. auto.
Qed.
Lemma map_inj_nodup {A B} (g : A -> B) l x y : NoDup (List.map g l) -> In x l -> In y l -> g x = g y -> x = y.
Proof.
  induction l as [|z l IH]; cbn; intros N Ix Iy E; [destruct Ix|]. inversion N as [|? ? Nz N']; subst.
  destruct Ix as [<-|Ix], Iy as [<-|Iy]; auto.
  - destruct Nz. rewrite E. apply in_map; auto.
  - destruct Nz. rewrite <- E. apply in_map; auto.
Qed.
Lemma nodup_map_filter {A B} (g : A -> B) b l : NoDup (List.map g l) -> NoDup (List.map g (filter b l)).
Proof.
  induction l as [|x l IH]; cbn; intros N; auto. inversion N; subst. destruct (b x); cbn; auto. constructor; auto.
  intros I. apply in_map_iff in I. destruct I as (y & E & I). apply filter_In in I. rewrite <- E in *.
  match goal with H : ~ In _ _ |- _ => apply H end. apply in_map. tauto.
Qed.
Lemma fold_last_rev {A} (b : A -> bool) xs : forall acc,
  fold_left (fun acc x => if b x then Some x else acc) xs acc =
  match rev (filter b xs) with [] => acc | x :: _ => Some x end.
Proof.
  induction xs as [|y xs IH]; intros acc; cbn [fold_left filter]; auto. rewrite IH.
  destruct (b y); cbn [rev]; auto. destruct (rev (filter b xs)); reflexivity.
Qed.

Section Rnd.
  Variable c : cconfig.
  Variable s : schema.

  Definition gives_f (f : irfield) : Prop := forall names path ds m us,
    match f with
    | IRField k d dp l r t =>
        (exists f0, ty_shape s f0 t) -> r_field c f names path = Ok (ds, m, us) ->
        exists e, m = r_member c k d dp l r e /\ rnd_type c names (path +++ "_" +++ k) t ds e us
    end.
  Definition gives_t (t : irtype) : Prop := forall names path ds e us,
    (exists f0, ty_shape s f0 t) -> r_type c t names path = Ok (ds, e, us) -> rnd_type c names path t ds e us.
  Definition gives_c (x : ircomplex) : Prop := forall names path ds us,
    fields_shape s (irc_fields x) -> r_complex c x names path = Ok (ds, us) ->
    exists ds' ms, ds = (ds' ++ [DObj path ms])%list /\ rnd_fields c names path (irc_fields x) ds' ms us.

  Lemma possibilities_rnd main repeated xs : (forall x, In x xs -> fields_shape s (irc_fields x)) -> Forall gives_c xs ->
    forall defs us names rep ds u ns r,
    r_possibilities (List.map (r_prepare c) xs) repeated main defs us names rep = Ok (ds, u, ns, r) ->
    let mine := filter (fun x => negb (smem (irc_name x) repeated)) xs in
    exists ds' us', rnd_plan c (List.map (fun x => (x, [irc_name x], own_name main x)) mine) ds' us' /\
      ds = (defs ++ ds')%list /\ u = (us ++ us')%list /\ ns = (names ++ List.map (own_name main) mine)%list.
  Proof.
    intros Sh F. induction F as [|x xs Hx F IH]; intros defs us names rep ds u ns r E; cbn [List.map r_possibilities filter] in *.
    - inversion E; subst. exists [], []. rewrite !app_nil_r. repeat split. constructor.
    - cbn [r_prepare rp_name rp_render] in E. destruct (smem (irc_name x) repeated); cbn [negb List.map].
      + apply IH in E; auto. intros; apply Sh; right; auto.
      + destruct (r_complex c x [irc_name x] (main +++ "_" +++ irc_name x)) as [[d1 u1]|] eqn:Ex; [|discriminate].
        apply Hx in Ex; [|apply Sh; left; auto]. destruct Ex as (dx & mx & -> & Rx).
        apply IH in E; [|intros; apply Sh; right; auto]. destruct E as (d2 & u2 & R2 & -> & -> & ->).
        exists ((dx ++ [DObj (main +++ "_" +++ irc_name x) mx]) ++ d2)%list, (u1 ++ u2)%list.
        rewrite <- !app_assoc. repeat split. rewrite app_assoc. destruct x as [T fs]. cbn [irc_name irc_fields] in *.
        apply rp_cons; auto.
  Qed.

  Lemma collection_rnd P xs main ds us : coll_shape s P xs -> Forall gives_c xs ->
    r_collection (List.map (r_prepare c) xs) main = Ok (ds, us) -> rnd_coll c xs main ds us.
  Proof.
    intros Sh F E. inversion Sh as [P0 xs0 So Nd Po Fs]; subst P0 xs0.
    assert (Fs' : forall x, In x xs -> fields_shape s (irc_fields x)).
    { intros [T fs] I. cbn. eapply Fs; eauto. }
    destruct xs as [|x [|y xs]].
    - discriminate.
    - cbn in E. inversion F as [|? ? Fx _]; subst. apply Fx in E; [|apply Fs'; left; auto].
      destruct E as (dx & mx & -> & Rx). apply rc_whole; [discriminate|apply own_single|].
      unfold plan. rewrite own_single. rewrite <- (app_nil_r (dx ++ _)), <- (app_nil_r us). destruct x as [T fs].
      apply rp_cons; [auto|constructor].
    - set (l := x :: y :: xs) in *.
      assert (Er : repeated_names (common_ids (rp_ids (r_prepare c x)) (List.map (r_prepare c) (y :: xs))) (List.map (r_prepare c) l)
                   = List.map irc_name (shared l)).
      { unfold repeated_names.
        assert (Ec : forall first others, common_ids first (List.map (r_prepare c) others) =
                      fold_left (fun cm y => filter (fun n => smem n (field_ids y)) cm) others first).
        { intros first others. unfold common_ids. revert first. induction others as [|z l0 IH]; intros first; cbn; auto. }
        rewrite Ec. change (fold_left _ (y :: xs) _) with (common_names l).
        assert (X : forall b l0, List.map rp_name (filter (fun x => b (rp_ids x)) (List.map (r_prepare c) l0)) =
                     List.map irc_name (filter (fun x => b (field_ids x)) l0)).
        { intros b. induction l0 as [|z l0 IH]; cbn; auto. destruct (b (field_ids z)); cbn; rewrite IH; auto. }
        rewrite (X (set_eqb (common_names l)) l). apply sunion_nil_NoDup. apply nodup_map_filter. auto. }
      unfold r_collection in E. subst l. cbn [List.map] in E.
      change (r_prepare c y :: List.map (r_prepare c) xs) with (List.map (r_prepare c) (y :: xs)) in E.
      change (r_prepare c x :: List.map (r_prepare c) (y :: xs)) with (List.map (r_prepare c) (x :: y :: xs)) in E.
      rewrite Er in E. clear Er. set (l := x :: y :: xs) in *.
      rewrite !map_length in E.
      assert (So' : sort_by (fun x => x) (List.map irc_name (shared l)) = List.map irc_name (shared l)).
      { apply sort_sorted_names, sorted_map, sorted_filter. auto. }
      assert (Sm : forall z, In z l -> smem (irc_name z) (List.map irc_name (shared l)) = is_shared l z).
      { intros z I. destruct (is_shared l z) eqn:S.
        - apply smem_spec, in_map, shared_in. auto.
        - apply smem_false. intros J. apply in_map_iff in J. destruct J as (w & Ew & J). apply shared_in in J.
          destruct J as [J S']. rewrite (map_inj_nodup irc_name l w z) in S'; auto. congruence. }
      destruct (Nat.eqb (List.length l) (List.length (shared l))) eqn:El.
      + assert (O : own l = []).
        { apply Nat.eqb_eq in El. apply own_nil. intros z I. destruct (is_shared l z) eqn:S; auto. exfalso.
          assert (X : forall m, (forall w, In w m -> In w l) -> List.length (filter (is_shared l) m) <= List.length m).
          { intros m _. induction m as [|w m IH]; cbn; auto. destruct (is_shared l w); cbn; lia. }
          assert (Y : forall m, In z m -> List.length (filter (is_shared l) m) < List.length m).
          { induction m as [|w m IH]; intros J; [destruct J|]. cbn [filter List.length]. destruct J as [->|J].
            - rewrite S. pose proof (X m) as Xm. clear - Xm.
              assert (List.length (filter (is_shared l) m) <= List.length m).
              { clear. induction m as [|w m IH]; cbn; auto. destruct (is_shared l w); cbn; lia. }
              lia.
            - apply IH in J. destruct (is_shared l w); cbn [List.length]; lia. }
          specialize (Y l I). unfold shared in El. lia. }
        cbn [r_prepare rp_render] in E. rewrite So' in E. inversion F as [|? ? Fx _]; subst.
        apply Fx in E; [|apply Fs'; left; auto]. destruct E as (dx & mx & -> & Rx).
        apply rc_whole; [discriminate|auto|]. unfold plan. rewrite O. unfold l at 1.
        rewrite (own_nil_shared _ O) in Rx. rewrite <- (app_nil_r (dx ++ _)), <- (app_nil_r us).
        destruct x as [T fs]. apply rp_cons; [auto|constructor].
      + assert (O : own l <> []).
        { intros O. rewrite (own_nil_shared _ O), Nat.eqb_refl in El. discriminate. }
        assert (Ef : filter (fun z => negb (smem (irc_name z) (List.map irc_name (shared l)))) l = own l).
        { unfold own. apply filter_ext_in. intros z I. rewrite Sm; auto. }
        assert (Es : filter (fun z => smem (irc_name z) (List.map irc_name (shared l))) l = shared l).
        { unfold shared at 2. apply filter_ext_in. intros z I. rewrite Sm; auto. }
        destruct (r_possibilities (List.map (r_prepare c) l) (List.map irc_name (shared l)) main [] [] [] None)
          as [[[[d1 u1] ns] rep]|] eqn:Ep; [|discriminate].
        pose proof (possibilities_rep c main _ l [] [] [] None _ _ _ _ Ep) as Hr.
        unfold last_repeated in Hr. rewrite fold_last_rev, Es in Hr.
        destruct (possibilities_rnd main _ l Fs' F _ _ _ _ _ _ _ _ Ep) as (d2 & u2 & R2 & -> & -> & ->).
        cbn [app] in *. rewrite Ef in *. unfold plan.
        assert (Pn : plan l main = (List.map (fun x => (x, [irc_name x], own_name main x)) (own l) ++
           match rev (shared l) with [] => [] | x :: _ => [(x, List.map irc_name (shared l), other_name main)] end)%list).
        { unfold plan. destruct (own l); [congruence|reflexivity]. }
        assert (Pm : List.map plan_name (List.map (fun x => (x, [irc_name x], own_name main x)) (own l)) = List.map (own_name main) (own l)).
        { rewrite map_map. reflexivity. }
        destruct (rev (shared l)) as [|z zs] eqn:Ez; cbn [option_map] in Hr; subst rep.
        * inversion E; subst. rewrite <- Pm. rewrite app_nil_r in Pn. rewrite <- Pn.
          apply rc_split; auto. rewrite Pn. auto.
        * cbn [r_prepare rp_render] in E. rewrite So' in E. fold (other_name main) in E.
          assert (Iz : In z l).
          { assert (J : In z (shared l)) by (apply in_rev; rewrite Ez; left; auto). apply shared_in in J. tauto. }
          rewrite Forall_forall in F.
          destruct (r_complex c z (List.map irc_name (shared l)) (other_name main)) as [[d3 u3]|] eqn:E3; [|discriminate].
          apply (F z Iz) in E3; auto. destruct E3 as (dz & mz & -> & Rz). inversion E; subst.
          replace (List.map (own_name main) (own l) ++ [other_name main])%list with (List.map plan_name (plan l main)).
          2: { rewrite Pn, map_app. rewrite <- Pm. reflexivity. }
          apply rc_split; auto. rewrite Pn.
          clear - R2 Rz. revert R2. generalize (List.map (fun x => (x, [irc_name x], own_name main x)) (own l)).
          intros pl R2. revert R2. induction 1 as [|T fs names path pl ds0 ms us0 ds' us' Rf Rp IH].
          -- cbn [app]. rewrite <- (app_nil_r (dz ++ _)), <- (app_nil_r u3). destruct z as [T fs]. apply rp_cons; [auto|constructor].
          -- cbn [app]. rewrite <- !(app_assoc (ds0 ++ _)), <- !(app_assoc us0). apply rp_cons; auto.
  Qed.

  Lemma render_rnd : (forall f, gives_f f) /\ (forall t, gives_t t) /\ (forall x, gives_c x).
  Proof.
    apply (ir_mutind gives_f gives_t gives_c).
    - intros k d dp l r t IH names path ds m us Sh E. rewrite r_field_eq in E.
      destruct (r_type c t names (path +++ "_" +++ k)) as [[[d1 e] u]|] eqn:Et; [|discriminate].
      inversion E; subst. exists e. split; auto.
    - intros names path ds e us _ E. inversion E; subst. constructor.
    - intros n names path ds e us _ E. inversion E; subst. constructor.
    - intros sc names path ds e us _ E. inversion E; subst. constructor.
    - intros xs F names path ds e us (f0 & Sh) E. rewrite r_type_complex in E.
      destruct (r_collection (List.map (r_prepare c) xs) path) as [[d1 u]|] eqn:Ec; [|discriminate].
      inversion E; subst. inversion Sh; subst. constructor. eapply collection_rnd; eauto.
    - intros n fs F names path ds us Sh E. cbn [irc_fields] in *. rewrite r_complex_eq in E.
      assert (Ft : Forall (fun f => match f with IRField _ _ _ _ _ t => exists f0, ty_shape s f0 t end) fs).
      { inversion Sh as [es So Nd Ff Ty]; subst. apply Forall_forall. intros x I. apply in_map_iff in I.
        destruct I as ([[k f] t] & <- & I). cbn. exists f. eapply Ty; eauto. }
      assert (X : forall defs u0 props, r_fields c names path fs defs u0 props = Ok (ds, us) ->
        exists ds' ms us', ds = (defs ++ ds' ++ [DObj path (props ++ ms)])%list /\ us = (u0 ++ us')%list /\
          rnd_fields c names path fs ds' ms us').
      { clear E Sh. induction F as [|f fs Hf F IH]; intros defs u0 props E; cbn [r_fields] in E.
        - inversion E; subst. exists [], [], []. rewrite !app_nil_r. repeat split. constructor.
        - inversion Ft as [|? ? Ff Ft']; subst.
          destruct (r_field c f names path) as [[[d1 m] u1]|] eqn:Ef; [|discriminate].
          apply IH in E; auto. destruct E as (d2 & ms & u2 & -> & -> & R). destruct f as [k d dp l r t].
          specialize (Hf names path d1 m u1 Ff Ef). destruct Hf as (e & -> & Rt).
          exists (d1 ++ d2)%list, (r_member c k d dp l r e :: ms), (u1 ++ u2)%list.
          rewrite <- !app_assoc. repeat split. econstructor; eauto. }
      destruct (X _ _ _ E) as (ds' & ms & us' & -> & -> & R). cbn [app]. eauto.
  Qed.

  Lemma rendered P xs main ds us : coll_shape s P xs ->
    r_collection (List.map (r_prepare c) xs) main = Ok (ds, us) -> rnd_coll c xs main ds us.
  Proof.
    intros Sh E. eapply collection_rnd; eauto. apply Forall_forall. intros. apply render_rnd.
  Qed.
End Rnd.

(** *** The renderer succeeds when no collection is empty *)
(** Every composite type of a field has an object type *)
Definition inhabited_types (s : schema) : Prop :=
  forall c n f, field_of s c n f -> composite s (ft_name (sf_type f)) -> exists T, possible s (ft_name (sf_type f)) T.

Section Total.
  Variable c : cconfig.
  Variable s : schema.
  Hypothesis inh : inhabited_types s.
  Definition total_f (f : irfield) : Prop := match f with IRField _ _ _ _ _ t =>
    (exists f0, (exists c n, field_of s c n f0) /\ ty_shape s f0 t) -> forall names path, exists r, r_field c f names path = Ok r end.
  Definition total_t (t : irtype) : Prop :=
    (exists f0, (exists c n, field_of s c n f0) /\ ty_shape s f0 t) -> forall names path, exists r, r_type c t names path = Ok r.
  Definition total_c (x : ircomplex) : Prop :=
    fields_shape s (irc_fields x) -> forall names path, exists r, r_complex c x names path = Ok r.

  Lemma collection_total P xs main : coll_shape s P xs -> (exists T, possible s P T) -> Forall total_c xs ->
    exists r, r_collection (List.map (r_prepare c) xs) main = Ok r.
  Proof.
    intros Sh C F. inversion Sh as [P0 xs0 So Nd Po Fs]; subst P0 xs0.
    assert (Ne : xs <> []). { intros ->. destruct C as (T & H). apply Po in H. destruct H. }
    assert (Ft : forall x, In x xs -> forall names path, exists r, r_complex c x names path = Ok r).
    { intros [T fs] I. rewrite Forall_forall in F. apply (F _ I). eapply Fs; eauto. }
    clear Sh F So Nd Po Fs.
    assert (Xp : forall rep ys, (forall x, In x ys -> In x xs) -> forall defs us names r0, exists r,
        r_possibilities (List.map (r_prepare c) ys) rep main defs us names (option_map (r_prepare c) r0) = Ok r).
    { intros rep. induction ys as [|y ys IH]; intros Hy defs us names r0; cbn [List.map r_possibilities]; [eauto|].
      cbn [r_prepare rp_name rp_render]. destruct (smem (irc_name y) rep).
      - apply (IH (fun z I => Hy z (or_intror I)) defs us names (Some y)).
      - destruct (Ft y (Hy y (or_introl eq_refl)) [irc_name y] (main +++ "_" +++ irc_name y)) as ([d u] & ->).
        apply IH. intros; apply Hy; right; auto. }
    destruct xs as [|x [|y xs]]; [congruence| |].
    - cbn. apply Ft. left; auto.
    - unfold r_collection. cbn [List.map].
      change (r_prepare c y :: List.map (r_prepare c) xs) with (List.map (r_prepare c) (y :: xs)).
      change (r_prepare c x :: List.map (r_prepare c) (y :: xs)) with (List.map (r_prepare c) (x :: y :: xs)).
      set (l := x :: y :: xs) in *. set (rep := repeated_names _ _).
      destruct (Nat.eqb _ _).
      + cbn [r_prepare rp_render]. apply Ft. left; auto.
      + destruct (Xp rep l (fun z I => I) [] [] [] None) as ([[[ds us] ns] r] & E). cbn [option_map] in E. rewrite E.
        pose proof (possibilities_rep c main rep l [] [] [] None _ _ _ _ E) as Hr.
        destruct (last_repeated rep l None) as [z|] eqn:Ez; cbn [option_map] in Hr; subst r; [|eauto].
        destruct (fold_last_in _ _ _ _ Ez) as [H|[H _]]; [discriminate|]. cbn [r_prepare rp_render].
        destruct (Ft z H (sort_by (fun x => x) rep) (main +++ "_$$other")) as ([d u] & ->). eauto.
  Qed.

  Lemma render_total : (forall f, total_f f) /\ (forall t, total_t t) /\ (forall x, total_c x).
  Proof.
    apply (ir_mutind total_f total_t total_c).
    - intros k d dp l r t IH Sh names path. rewrite r_field_eq.
      destruct (IH Sh names (path +++ "_" +++ k)) as ([[ds e] u] & ->). eauto.
    - intros _ names path. eexists. reflexivity.
    - intros n _ names path. eexists. reflexivity.
    - intros sc _ names path. eexists. reflexivity.
    - intros xs F (f0 & (c0 & n0 & Fo) & Sh) names path. rewrite r_type_complex. inversion Sh; subst.
      destruct (collection_total (ft_name (sf_type f0)) xs path) as ([ds u] & ->); eauto.
    - intros n fs F Sh names path. cbn [irc_fields] in Sh. rewrite r_complex_eq.
      assert (Ft : Forall (fun f => match f with IRField _ _ _ _ _ t => exists f0, (exists c n, field_of s c n f0) /\ ty_shape s f0 t end) fs).
      { inversion Sh as [es So Nd Ff Ty]; subst. apply Forall_forall. intros x I. apply in_map_iff in I.
        destruct I as ([[k f] t] & <- & I). cbn. exists f. split; [eapply Ff|eapply Ty]; eauto. }
      clear Sh. generalize (@nil decl) (@nil string) (@nil member).
      induction F as [|f fs Hf F IH]; intros defs us props; cbn [r_fields]; [eauto|].
      inversion Ft as [|? ? Ff Ft']; subst. destruct f as [k d dp l r t].
      destruct (Hf Ff names path) as ([[ds m] u] & ->). apply IH. auto.
  Qed.
  Lemma renders P xs main : coll_shape s P xs -> (exists T, possible s P T) ->
    exists r, r_collection (List.map (r_prepare c) xs) main = Ok r.
  Proof. intros. eapply collection_total; eauto. apply Forall_forall. intros. apply render_total. Qed.
End Total.

(** *** Names of declarations *)
Lemma rnd_names_all c :
  (forall names path t ds e us, rnd_type c names path t ds e us -> forall x, In x ds -> exists r, decl_name x = path +++ r /\ (r = "" \/ exists r', r = "_" +++ r')) /\
  (forall names path fs ds ms us, rnd_fields c names path fs ds ms us -> forall x, In x ds -> exists r, decl_name x = path +++ "_" +++ r) /\
  (forall pl ds us, rnd_plan c pl ds us -> forall x, In x ds -> exists p r, In p (List.map plan_name pl) /\ decl_name x = p +++ r /\ (r = "" \/ exists r', r = "_" +++ r')) /\
  (forall xs main ds us, rnd_coll c xs main ds us -> forall x, In x ds -> exists r, decl_name x = main +++ r /\ (r = "" \/ exists r', r = "_" +++ r')).
Proof.
  assert (Pn : forall xs main p, In p (List.map plan_name (plan xs main)) -> p = main \/ exists r', p = main +++ "_" +++ r').
  { intros xs main p. unfold plan. destruct (own xs) as [|y ys].
    - destruct xs as [|x xs]; cbn; [tauto|]. intros [<-|[]]. auto.
    - rewrite map_app, in_app_iff, map_map. intros [I|I].
      + apply in_map_iff in I. destruct I as (z & <- & _). right. eexists. reflexivity.
      + destruct (rev (shared xs)); cbn in I; [tauto|]. destruct I as [<-|[]]. right. exists "$$other". reflexivity. }
  assert (Cn : forall xs main ds us, rnd_plan c (plan xs main) ds us ->
     (forall x, In x ds -> exists p r, In p (List.map plan_name (plan xs main)) /\ decl_name x = p +++ r /\ (r = "" \/ exists r', r = "_" +++ r')) ->
     forall x, In x ds -> exists r, decl_name x = main +++ r /\ (r = "" \/ exists r', r = "_" +++ r')).
  { intros xs main ds us _ H x I. destruct (H x I) as (p & r & Ip & -> & Hr). destruct (Pn _ _ _ Ip) as [->|(r1 & ->)].
    - eauto.
    - destruct Hr as [->|(r2 & ->)].
      + exists ("_" +++ r1). rewrite sapp_nil_r. split; auto. right. eauto.
      + exists ("_" +++ r1 +++ "_" +++ r2). rewrite !sapp_assoc. split; auto. right. eauto. }
  apply (rnd_mutind c (fun names path t ds e us _ => forall x, In x ds -> exists r, decl_name x = path +++ r /\ (r = "" \/ exists r', r = "_" +++ r'))
    (fun names path fs ds ms us _ => forall x, In x ds -> exists r, decl_name x = path +++ "_" +++ r)
    (fun pl ds us _ => forall x, In x ds -> exists p r, In p (List.map plan_name pl) /\ decl_name x = p +++ r /\ (r = "" \/ exists r', r = "_" +++ r'))
    (fun xs main ds us _ => forall x, In x ds -> exists r, decl_name x = main +++ r /\ (r = "" \/ exists r', r = "_" +++ r'))).
  - intros names path x [].
  - intros names path n x [].
  - intros names path sc x [].
  - auto.
  - intros names path x [].
  - intros names path k d dp l r t fs ds e us ds' ms us' _ IH _ IH' x I. apply in_app_or in I. destruct I as [I|I]; auto.
    destruct (IH x I) as (r0 & -> & _). rewrite !sapp_assoc. eauto.
  - intros x [].
  - intros T fs names path pl ds ms us ds' us' _ IH _ IH' x I. apply in_app_or in I. destruct I as [I|I].
    + apply in_app_or in I. destruct I as [I|[<-|[]]].
      * destruct (IH x I) as (r & ->). exists path, ("_" +++ r). split; [left; auto|]. split; auto. right. eauto.
      * exists path, "". cbn. rewrite sapp_nil_r. auto.
    + destruct (IH' x I) as (p & r & Ip & E & Hr). exists p, r. split; [right; auto|]. auto.
  - intros xs main ds us _ _ R IH. eauto.
  - intros xs main ds us _ R IH x I. apply in_app_or in I. destruct I as [I|[<-|[]]]; [eauto|].
    exists "". cbn. rewrite sapp_nil_r. auto.
Qed.
Lemma rnd_coll_names c xs main ds us : rnd_coll c xs main ds us -> forall x, In x ds ->
  decl_name x = main \/ exists r, decl_name x = main +++ "_" +++ r.
Proof.
  intros R x I. destruct (rnd_names_all c) as (_ & _ & _ & H). destruct (H _ _ _ _ R x I) as (r & -> & [->|(r' & ->)]); eauto.
  left. apply sapp_nil_r.
Qed.
