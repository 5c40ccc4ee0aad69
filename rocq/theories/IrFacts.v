(** From a represented traversal to the intermediate representation. *)
From Verif Require Export CollectMain SpecIr.

Definition conv_ent (o : order) (i : nat) (p : list nat) (x : nat * ((string * string) * (sfield * ftrav)))
  : res ir_error irfield :=
  let '(j, ((alias, _), (f, t))) := x in
  match type_ir o (j :: i :: p) f t with
  | Err e => Err e
  | Ok ty => Ok (IRField alias (sf_doc f) (sf_deprecated f) (ft_mod (sf_type f)) (ft_rest (sf_type f)) ty)
  end.
Definition conv_obj (o : order) (p : list nat) (x : nat * (string * ufields)) : res ir_error ircomplex :=
  let '(i, (name, u)) := x in
  match collect_res (o (i :: p) _ (List.map (conv_ent o i p) (indexed_from 0 u))) with
  | Err e => Err e
  | Ok fs' => Ok (IRComplex name (sort_by irf_prop fs'))
  end.

Lemma type_ir_cplx o p f n lk objs : fdef_is_complex (ft_def (sf_type f)) = true ->
  ft_def (sf_type f) <> FDInputObject ->
  type_ir o p f (FCplx n lk objs) =
  match collect_res (o p _ (List.map (conv_obj o p) (indexed_from 0 objs))) with
  | Err e => Err e
  | Ok cs' => Ok (IComplex (sort_by irc_name cs'))
  end.
Proof.
  intros H NI.
  assert (E : List.map (conv_obj o p) (indexed_from 0 objs) =
     (fix conv (i : nat) (l : list (string * list ((string * string) * (sfield * ftrav)))) :=
               match l with
               | [] => []
               | (name, u) :: l' =>
                   let fs :=
                     (fix convu (j : nat) (l : list ((string * string) * (sfield * ftrav))) :=
                        match l with
                        | [] => []
                        | ((alias, _), (f, t)) :: r =>
                            match type_ir o (j :: i :: p) f t with
                            | Err e => Err e
                            | Ok ty => Ok (IRField alias (sf_doc f) (sf_deprecated f)
                                             (ft_mod (sf_type f)) (ft_rest (sf_type f)) ty)
                            end :: convu (S j) r
                        end) 0 u in
                   match collect_res (o (i :: p) _ fs) with
                   | Err e => Err e
                   | Ok fs' => Ok (IRComplex name (sort_by irf_prop fs'))
                   end :: conv (S i) l'
               end) 0 objs).
  { generalize 0 at 1 3. induction objs as [|[name u] l IH]; intros i.
    - reflexivity.
    - rewrite indexed_from_cons. cbn [List.map]. f_equal; [|apply IH].
      unfold conv_obj.
      match goal with |- match collect_res (o _ _ ?a) with _ => _ end = match collect_res (o _ _ ?b) with _ => _ end =>
        assert (Eu : a = b); [|rewrite Eu; reflexivity] end.
      generalize 0. clear IH. induction u as [|[[al ty] [f0 t]] u IHu]; intros j.
      + reflexivity.
      + rewrite indexed_from_cons. cbn [List.map]. f_equal; apply IHu. }
  rewrite E. cbn [type_ir]. destruct (ft_def (sf_type f)); try discriminate; try congruence; reflexivity.
Qed.

Lemma collect_res_total {E A B} (g : A -> res E B) (l : list A) (Q : A -> B -> Prop) :
  (forall x, In x l -> exists y, g x = Ok y /\ Q x y) ->
  exists ys, collect_res (List.map g l) = Ok ys /\ Forall2 Q l ys.
Proof.
  induction l as [|x l IH]; intros H; cbn.
  - exists []. auto.
  - destruct (H x) as (y & E' & Qy); [left; auto|]. rewrite E'.
    destruct IH as (ys & Ey & F). { intros; apply H; right; auto. }
    rewrite Ey. exists (y :: ys). auto.
Qed.

Lemma order_map {A B} (o : order) (o_ok : order_ok o) p (g : A -> B) (l : list A) :
  exists l', Permutation l l' /\ o p _ (List.map g l) = List.map g l'.
Proof.
  pose proof (o_ok p _ (List.map g l)) as Pm.
  destruct (Permutation_map_inv g l (Permutation_sym Pm)) as (l' & E & P'). exists l'.
  split; [auto|]. auto.
Qed.

Lemma NoDup_map_inv2 {A B} (g : A -> B) l x y : NoDup (List.map g l) -> In x l -> In y l -> g x = g y -> x = y.
Proof.
  induction l as [|z l IH]; cbn; [contradiction|]. intros N [->|Ix] [->|Iy] E; auto.
  - inversion N; subst. exfalso. apply H1. rewrite E. apply in_map. auto.
  - inversion N; subst. exfalso. apply H1. rewrite <- E. apply in_map. auto.
  - inversion N; subst; auto.
Qed.

Lemma Forall2_in_l {A B} (Q : A -> B -> Prop) l l' x : Forall2 Q l l' -> In x l -> exists y, In y l' /\ Q x y.
Proof.
  induction 1 as [|a b l l' H F IH]; [intros []|]. intros [->|I]; [exists b; cbn; auto|].
  destruct (IH I) as (y & Iy & Qy). exists y. cbn. auto.
Qed.
Lemma Forall2_in_r {A B} (Q : A -> B -> Prop) l l' y : Forall2 Q l l' -> In y l' -> exists x, In x l /\ Q x y.
Proof.
  induction 1 as [|a b l l' H F IH]; [intros []|]. intros [->|I]; [exists a; cbn; auto|].
  destruct (IH I) as (x & Ix & Qx). exists x. cbn. auto.
Qed.
Lemma Forall2_imp {A B} (Q R : A -> B -> Prop) l l' :
  (forall a b, Q a b -> R a b) -> Forall2 Q l l' -> Forall2 R l l'.
Proof. induction 2; auto. Qed.
Lemma Forall2_map_eq {A B C} (g : A -> C) (h : B -> C) l l' :
  Forall2 (fun a b => g a = h b) l l' -> List.map g l = List.map h l'.
Proof. induction 1; cbn; congruence. Qed.

Lemma sort_by_map {A B} (key : A -> string) (key' : B -> string) (g : A -> B) l :
  (forall x, key' (g x) = key x) -> sort_by key' (List.map g l) = List.map g (sort_by key l).
Proof.
  intros H. unfold sort_by. induction l as [|x l IH]; cbn; auto. rewrite IH.
  generalize (fold_right (insert_by key) [] l). clear IH l. intros l.
  induction l as [|y l IH]; cbn; auto. rewrite !H. destruct (str_leb (key x) (key y)); cbn; auto.
  rewrite IH. auto.
Qed.

Section IrOk.
  Variable s : schema.
  Variable frags : amap string fragdef.
  Variable o : order.
  Hypothesis o_ok : order_ok o.
  Hypothesis cons_ok : consistent s.

  Notation rep := (rep s frags).
  Notation rep_u := (rep_u s frags).
  Notation focc := (focc s frags).

  Definition ir_good (tr : ftrav) (tn : string) (M : selset) : Prop :=
    forall f p, fdef_is_complex (ft_def (sf_type f)) = true -> ft_def (sf_type f) <> FDInputObject ->
      composite s tn ->
      exists cs, type_ir o p f tr = Ok (IComplex cs) /\ coll_ok s frags tn M cs.

  Lemma type_ir_leaf p f tr (M : selset) :
    kind_agrees s f -> ~ composite s (ft_name (sf_type f)) ->
    exists t, type_ir o p f tr = Ok t /\ ty_ok s frags f M t.
  Proof.
    intros K C. unfold kind_agrees in K.
    destruct (ft_def (sf_type f)) eqn:D; try (destruct tr; cbn [type_ir]; rewrite D; eexists; (split; [reflexivity|])).
    all: try (solve [constructor; auto]).
    all: try contradiction.
    all: exfalso; apply C; unfold composite; destruct (get_type s _) as [t|]; [exists t; split; auto; cbn in K|].
    all: repeat match type of K with ex _ => let x := fresh in destruct K as [x K] end; try discriminate.
    all: inversion K as [K']; rewrite K'; auto.
  Qed.

  Lemma conv_u_ok (O : occset) u i p :
    (forall k f ss, O k f ss -> kind_agrees s f) ->
    rep_u O u ->
    (forall k typ f tr, aget (k, typ) u = Some (f, tr) -> ir_good tr typ (merged O k typ)) ->
    exists fs', collect_res (o (i :: p) _ (List.map (conv_ent o i p) (indexed_from 0 u))) = Ok fs' /\
      fields_ok s frags O (sort_by irf_prop fs').
  Proof.
    intros KA R G. pose proof R as (N & S1 & C1).
    destruct (order_map o o_ok (i :: p) (conv_ent o i p) (indexed_from 0 u)) as (l & Pm & El).
    rewrite El.
    assert (In_u : forall j k typ f tr, In (j, ((k, typ), (f, tr))) l -> aget (k, typ) u = Some (f, tr)).
    { intros j k typ f tr I. apply In_aget; auto. rewrite <- (indexed_snd 0 u).
      apply (Permutation_in _ (Permutation_sym Pm)) in I. apply (in_map snd) in I. auto. }
    destruct (collect_res_total (conv_ent o i p) l
      (fun x y => exists t, y = mk_irfield (fst (fst (snd x)), fst (snd (snd x)), t) /\
                  ty_ok s frags (fst (snd (snd x))) (merged O (fst (fst (snd x))) (snd (fst (snd x)))) t))
      as (ys & Ey & F).
    { intros (j & ((k & typ) & (f & tr))) I. apply In_u in I. cbn [fst snd].
      destruct (S1 _ _ _ _ I) as (A & [ss B] & Rt). pose proof (KA _ _ _ B) as K.
      destruct (rep_composite s frags tr typ _ Rt) as [[_ C]|[_ C]].
      - assert (D : fdef_is_complex (ft_def (sf_type f)) = true).
        { rewrite <- A in C. unfold kind_agrees in K. destruct C as (t & Et & C).
          destruct (ft_def (sf_type f)); auto; exfalso.
          - destruct K as [vs K]. rewrite Et in K. cbn in K. inversion K as [K']. rewrite K' in C. auto.
          - apply K. exists t; auto.
          - apply K. exists t; auto. }
        destruct (G _ _ _ _ I f (j :: i :: p) D) as (cs & Ec & Co); auto.
        { intros D2. unfold kind_agrees in K. rewrite D2 in K. auto. }
        cbn [conv_ent]. rewrite Ec. eexists. split; [reflexivity|]. exists (IComplex cs). split; auto.
        constructor; auto. rewrite A. auto.
      - rewrite <- A in C. destruct (type_ir_leaf (j :: i :: p) f tr (merged O k typ) K C) as (t & Et & T).
        cbn [conv_ent]. rewrite Et. eexists. split; [reflexivity|]. exists t. auto. }
    exists ys. split; [exact Ey|].
    (* the entries behind the properties *)
    assert (Hes : exists es, ys = List.map mk_irfield es /\
       List.map (fun e : string * sfield * irtype => (fst (fst e), ft_name (sf_type (snd (fst e))))) es =
         List.map (fun x : nat * ((string * string) * (sfield * ftrav)) => fst (snd x)) l /\
       (forall k f t, In (k, f, t) es -> exists tr, aget (k, ft_name (sf_type f)) u = Some (f, tr) /\
            ty_ok s frags f (merged O k (ft_name (sf_type f))) t)).
    { clear Ey El Pm. induction F as [|x y l ys (t & Ey & Ty) F IH].
      - exists []. cbn. split; [auto|]. split; [auto|]. intros k f t [].
      - destruct IH as (es & E1 & E2 & E3). { intros. eapply In_u. right. eauto. }
        destruct x as (j & ((k & typ) & (f & tr))). cbn [fst snd] in *.
        assert (I : aget (k, typ) u = Some (f, tr)) by (eapply In_u; left; reflexivity).
        destruct (S1 _ _ _ _ I) as (A & _ & _).
        exists ((k, f, t) :: es). cbn [List.map fst snd]. split; [congruence|]. split; [rewrite A; congruence|].
        intros k' f' t' [H|H]; [|auto]. inversion H; subst. exists tr. auto. }
    destruct Hes as (es & -> & Ecl & Hes).
    rewrite (sort_by_map (fun e : string * sfield * irtype => fst (fst e))) by (intros [[? ?] ?]; auto).
    pose proof (sort_by_perm (fun e : string * sfield * irtype => fst (fst e)) es) as Ps.
    constructor.
    - apply sort_by_sorted.
    - eapply Permutation_NoDup; [apply Permutation_map; exact Ps|]. rewrite Ecl.
      eapply Permutation_NoDup; [apply Permutation_map; exact Pm|].
      rewrite <- (map_map snd fst). rewrite indexed_snd. exact N.
    - intros k f t I. apply (Permutation_in _ (Permutation_sym Ps)) in I.
      destruct (Hes _ _ _ I) as (tr & E & _). destruct (S1 _ _ _ _ E) as (_ & B & _). auto.
    - intros k f t I. apply (Permutation_in _ (Permutation_sym Ps)) in I.
      destruct (Hes _ _ _ I) as (tr & E & T). auto.
    - intros k f ss B. destruct (C1 _ _ _ B) as [[f' tr] E].
      destruct (S1 _ _ _ _ E) as (A & _ & _).
      assert (I : In (k, ft_name (sf_type f)) (List.map (fun e : string * sfield * irtype => (fst (fst e), ft_name (sf_type (snd (fst e))))) es)).
      { rewrite Ecl. eapply Permutation_in; [apply Permutation_map; exact Pm|].
        rewrite <- (map_map snd fst). rewrite indexed_snd. eapply aget_Some_key; eauto. }
      apply in_map_iff in I. destruct I as (((k0 & f0) & t0) & E0 & I0). cbn in E0. inversion E0; subst k0.
      exists f0, t0. split; [|congruence]. eapply Permutation_in; [exact Ps|]. auto.
  Qed.

  Lemma type_ir_ok : forall tr tn M, rep tr tn M -> ir_good tr tn M.
  Proof.
    intros tr tn M R. induction R as [tn M C|tn lk objs M L N K Nu Sd Cp Nr IH].
    - intros f p D NI C'. contradiction.
    - intros f p D NI C. rewrite type_ir_cplx by auto.
      destruct (order_map o o_ok p (conv_obj o p) (indexed_from 0 objs)) as (l & Pm & El).
      match goal with |- context [collect_res ?x] =>
        replace x with (List.map (conv_obj o p) l) by (symmetry; exact El) end.
      assert (In_o : forall i T u, In (i, (T, u)) l -> aget T objs = Some u).
      { intros i T u I. apply In_aget; auto. rewrite <- (indexed_snd 0 objs).
        apply (Permutation_in _ (Permutation_sym Pm)) in I. apply (in_map snd) in I. auto. }
      destruct (collect_res_total (conv_obj o p) l
        (fun x y => exists fs, y = IRComplex (fst (snd x)) fs /\ fields_ok s frags (focc (fst (snd x)) tn M) fs))
        as (ys & Ey & F).
      { intros (i & (T & u)) I. apply In_o in I. cbn [fst snd].
        destruct (conv_u_ok (focc T tn M) u i p) as (fs & Ef & Ff).
        - intros k f' ss (P' & n & _ & Fo). eapply cons_ok; eauto.
        - split; [eapply Nu; eauto|]. split.
          + intros k typ f' tr' G. destruct (Sd _ _ _ _ _ _ I G) as [A B]. split; [auto|]. split; [auto|].
            eapply Nr; eauto.
          + intros k f' ss B. eapply Cp; eauto.
        - intros k typ f' tr' G. eapply IH; eauto.
        - cbn [conv_obj]. rewrite Ef. eexists. split; [reflexivity|]. eauto. }
      rewrite Ey. eexists. split; [reflexivity|].
      pose proof (sort_by_perm irc_name ys) as Ps.
      assert (En : List.map irc_name ys = List.map (fun x : nat * (string * ufields) => fst (snd x)) l).
      { symmetry. apply Forall2_map_eq. eapply Forall2_imp; [|exact F]. intros a b (fs & -> & _). auto. }
      assert (Pn : Permutation (akeys objs) (List.map irc_name (sort_by irc_name ys))).
      { etransitivity; [|apply Permutation_map; exact Ps]. rewrite En.
        etransitivity; [|apply Permutation_map; exact Pm].
        rewrite <- (map_map snd fst). rewrite indexed_snd. reflexivity. }
      constructor.
      + apply sort_by_sorted.
      + eapply Permutation_NoDup; eauto.
      + intros T. rewrite <- K. split; apply Permutation_in; auto using Permutation_sym.
      + intros T fs I. apply (Permutation_in _ (Permutation_sym Ps)) in I.
        destruct (Forall2_in_r _ _ _ _ F I) as (x & Ix & fs' & E & Ff). inversion E; subst. auto.
  Qed.
End IrOk.

(** *** Collection followed by conversion *)
Section Compile.
  Variable cx : ctx.
  Hypothesis o_ok : order_ok (cx_order cx).
  Hypothesis cons_ok : consistent (cx_schema cx).

  Lemma collection_valid P sels p : composite (cx_schema cx) P ->
    valid_sels (cx_schema cx) (cx_frags cx) P sels ->
    exists n, forall fuel, n <= fuel -> forall pth pth' js, exists parent, new_ctrav (cx_schema cx) P p = Ok parent /\
      exists parent' ws cs, collect fuel cx pth sels parent js = Some (parent', ws, []) /\
        collection_of (cx_order cx) pth' parent' = Ok cs /\
        coll_ok (cx_schema cx) (cx_frags cx) P (fun x => In x sels) cs.
  Proof.
    intros C V. destruct (collect_valid cx o_ok cons_ok P sels p C V) as [n Hn]. exists n.
    intros fuel Hf pth pth' js. destruct (Hn fuel Hf pth js) as (par & En & par' & ws & Ec & R).
    exists par. split; auto.
    destruct (type_ir_ok _ _ (cx_order cx) o_ok cons_ok _ _ _ R root_field pth' eq_refl ltac:(discriminate) C) as (cs & Et & Co).
    exists par', ws, cs. split; [auto|]. split; [|auto]. unfold collection_of. rewrite Et. auto.
  Qed.
End Compile.
