(** The renderer of [Typescript], restated on syntax trees, and the proof that the text it produces
    is the text of those trees. *)
From Verif Require Export SpecFile WrapFacts SpecIr.

(** *** Induction on the intermediate representation *)
Section IrInd.
  Variables (Pf : irfield -> Prop) (Pt : irtype -> Prop) (Pc : ircomplex -> Prop).
  Hypothesis Hf : forall k d dp l r t, Pt t -> Pf (IRField k d dp l r t).
  Hypothesis Ht : Pt ITypeName.
  Hypothesis He : forall n, Pt (IEnum n).
  Hypothesis Hs : forall sc, Pt (IScalar sc).
  Hypothesis Hx : forall xs, Forall Pc xs -> Pt (IComplex xs).
  Hypothesis Hc : forall n fs, Forall Pf fs -> Pc (IRComplex n fs).

  Fixpoint irf_ind (f : irfield) : Pf f :=
    match f with IRField k d dp l r t => Hf k d dp l r t (irt_ind t) end
  with irt_ind (t : irtype) : Pt t :=
    match t with
    | ITypeName => Ht
    | IEnum n => He n
    | IScalar sc => Hs sc
    | IComplex xs =>
        Hx xs ((fix go (l : list ircomplex) : Forall Pc l :=
                  match l with [] => Forall_nil _ | x :: l' => Forall_cons _ (irc_ind x) (go l') end) xs)
    end
  with irc_ind (x : ircomplex) : Pc x :=
    match x with
    | IRComplex n fs =>
        Hc n fs ((fix go (l : list irfield) : Forall Pf l :=
                    match l with [] => Forall_nil _ | f :: l' => Forall_cons _ (irf_ind f) (go l') end) fs)
    end.
  Lemma ir_mutind : (forall f, Pf f) /\ (forall t, Pt t) /\ (forall x, Pc x).
  Proof. split; [exact irf_ind|]. split; [exact irt_ind|exact irc_ind]. Qed.
End IrInd.

(** *** Structured rendering *)
Definition lit_union (names : list string) : texpr :=
  match names with
  | [] => XLit ""
  | n :: ns => fold_left (fun e x => XUnion e (XLit x)) ns (XLit n)
  end.

(** Renderers return the declarations and the global type names used, in order of use *)
Definition rrenderer : Type := list string -> string -> res ts_error (list decl * list string).
Record rposs := { rp_name : string; rp_ids : list string; rp_render : rrenderer }.

Fixpoint r_possibilities (ps : list rposs) (repeated : list string) (main : string)
         (defs : list decl) (us names : list string) (rep : option rposs)
  : res ts_error (list decl * list string * list string * option rposs) :=
  match ps with
  | [] => Ok (defs, us, names, rep)
  | x :: ps' =>
      if smem (rp_name x) repeated
      then r_possibilities ps' repeated main defs us names (Some x)
      else
        let path := main +++ "_" +++ rp_name x in
        match rp_render x [rp_name x] path with
        | Err e => Err e
        | Ok (ds, u) => r_possibilities ps' repeated main (defs ++ ds) (us ++ u) (names ++ [path]) rep
        end
  end.

Definition common_ids (first : list string) (others : list rposs) : list string :=
  fold_left (fun cm x => filter (fun n => smem n (rp_ids x)) cm) others first.
Definition repeated_names (common : list string) (ps : list rposs) : list string :=
  sunion [] (List.map rp_name (filter (fun x => set_eqb common (rp_ids x)) ps)).

Definition r_collection (ps : list rposs) (main : string) : res ts_error (list decl * list string) :=
  match ps with
  | [] => Err TExpectedAtLeastOnePossibility
  | [first] => rp_render first [rp_name first] main
  | first :: others =>
      let repeated := repeated_names (common_ids (rp_ids first) others) ps in
      if Nat.eqb (List.length ps) (List.length repeated)
      then rp_render first (sort_by (fun x => x) repeated) main
      else
        match r_possibilities ps repeated main [] [] [] None with
        | Err e => Err e
        | Ok (defs, us, names, rep) =>
            match rep with
            | None => Ok (defs ++ [DAlias main names], us)
            | Some x =>
                let sname := main +++ "_$$other" in
                match rp_render x (sort_by (fun x => x) repeated) sname with
                | Err e => Err e
                | Ok (ds, u) => Ok ((defs ++ ds) ++ [DAlias main (names ++ [sname])], us ++ u)
                end
            end
        end
  end.

Definition r_member (c : cconfig) (prop : string) (doc : option string) (deprecated : bool)
           (last : fmod) (rest : list fmod) (flat : texpr) : member :=
  {| m_comment := compile_documentation doc deprecated 2; m_readonly := cc_readonly c; m_name := prop;
     m_optional := false; m_type := ptd_expr rest last flat |}.

Fixpoint r_field (c : cconfig) (f : irfield) {struct f}
  : list string -> string -> res ts_error (list decl * member * list string) :=
  match f with
  | IRField prop doc depr last rest ty =>
      fun cnames path =>
        match r_type c ty cnames (path +++ "_" +++ prop) with
        | Err e => Err e
        | Ok (defs, flat, u) => Ok (defs, r_member c prop doc depr last rest flat, u)
        end
  end
with r_type (c : cconfig) (t : irtype) {struct t}
  : list string -> string -> res ts_error (list decl * texpr * list string) :=
  match t with
  | IComplex xs =>
      fun _ sub =>
        match r_collection (List.map (fun x => {| rp_name := irc_name x; rp_ids := field_ids x;
                                                  rp_render := r_complex c x |}) xs) sub with
        | Err e => Err e
        | Ok (defs, u) => Ok (defs, XName sub, u)
        end
  | IEnum name => fun _ _ => Ok ([], XName name, [name])
  | IScalar s => fun _ _ => Ok ([], XName (scalar_ts c s), [])
  | ITypeName => fun cnames _ => Ok ([], lit_union cnames, [])
  end
with r_complex (c : cconfig) (x : ircomplex) {struct x} : rrenderer :=
  match x with
  | IRComplex _ fields =>
      fun cnames path =>
        (fix go (fs : list irfield) (defs : list decl) (us : list string) (props : list member) :=
           match fs with
           | [] => Ok (defs ++ [DObj path props], us)
           | f :: fs' =>
               match r_field c f cnames path with
               | Err e => Err e
               | Ok (ds, prop, u) => go fs' (defs ++ ds) (us ++ u) (props ++ [prop])
               end
           end) fields [] [] []
  end.
Definition r_prepare (c : cconfig) (x : ircomplex) : rposs :=
  {| rp_name := irc_name x; rp_ids := field_ids x; rp_render := r_complex c x |}.

(** One-step equations *)
Fixpoint r_fields (c : cconfig) (cnames : list string) (path : string) (fs : list irfield)
         (defs : list decl) (us : list string) (props : list member) : res ts_error (list decl * list string) :=
  match fs with
  | [] => Ok (defs ++ [DObj path props], us)
  | f :: fs' =>
      match r_field c f cnames path with
      | Err e => Err e
      | Ok (ds, prop, u) => r_fields c cnames path fs' (defs ++ ds) (us ++ u) (props ++ [prop])
      end
  end.
Lemma r_field_eq c k d dp l r t cnames path :
  r_field c (IRField k d dp l r t) cnames path =
  match r_type c t cnames (path +++ "_" +++ k) with
  | Err e => Err e
  | Ok (defs, flat, u) => Ok (defs, r_member c k d dp l r flat, u)
  end.
Proof. reflexivity. Qed.
Lemma r_type_complex c xs cnames sub :
  r_type c (IComplex xs) cnames sub =
  match r_collection (List.map (r_prepare c) xs) sub with
  | Err e => Err e
  | Ok (defs, u) => Ok (defs, XName sub, u)
  end.
Proof. reflexivity. Qed.
Lemma r_complex_eq c n fs cnames path :
  r_complex c (IRComplex n fs) cnames path = r_fields c cnames path fs [] [] [].
Proof.
  cbn [r_complex].
  match goal with |- ?go fs [] [] [] = _ =>
    enough (H : forall fs defs us props, go fs defs us props = r_fields c cnames path fs defs us props) by apply H end.
  clear. induction fs as [|f fs IH]; intros defs us props.
  - reflexivity.
  - cbn [r_fields]. destruct (r_field c f cnames path) as [[[ds prop] u]|e]; auto.
Qed.

(** Same equations for the text renderer *)
Fixpoint t_fields (c : cconfig) (o : order) (p : list nat) (cname path : string) (j : nat)
         (fs : list irfield) (g : gset) (defs props : list string) : res ts_error (list string * gset) :=
  match fs with
  | [] => Ok (defs ++ ["export type " +++ path +++ " = {" +++ nl +++ join nl props +++ nl +++ "};"], g)
  | f :: fs' =>
      match ts_field c o f (j :: p) cname path g with
      | Err e => Err e
      | Ok (ds, prop, g') => t_fields c o p cname path (S j) fs' g' (defs ++ ds) (props ++ [prop])
      end
  end.
Lemma ts_complex_eq c o n fs p cname path g :
  ts_complex c o (IRComplex n fs) p cname path g = t_fields c o p cname path 0 fs g [] [].
Proof.
  cbn [ts_complex].
  match goal with |- ?go 0 fs g [] [] = _ =>
    enough (H : forall fs j g defs props, go j fs g defs props = t_fields c o p cname path j fs g defs props) by apply H end.
  clear. induction fs as [|f fs IH]; intros j g defs props.
  - reflexivity.
  - cbn [t_fields]. destruct (ts_field c o f (j :: p) cname path g) as [[[ds prop] g']|e]; auto.
Qed.
Lemma ts_type_complex c o xs p cname sub g :
  ts_type c o (IComplex xs) p cname sub g =
  match ts_collection o p (List.map (prepare c o) xs) sub g with
  | Err e => Err e
  | Ok (defs, g') => Ok (defs, sub, g')
  end.
Proof. reflexivity. Qed.
Lemma ts_field_eq c o k d dp l r t p cname path g :
  ts_field c o (IRField k d dp l r t) p cname path g =
  match ts_type c o t p cname (path +++ "_" +++ k) g with
  | Err e => Err e
  | Ok (defs, flat, g') => Ok (defs, prop_line c k d dp l r flat, g')
  end.
Proof. reflexivity. Qed.

(** *** Printing trees *)
Definition cname_of (names : list string) : string := join (dq +++ " | " +++ dq) names.

Lemma print_lit_union names : print_texpr (lit_union names) = dq +++ cname_of names +++ dq.
Proof.
  unfold cname_of, join. destruct names as [|n ns]; [reflexivity|]. cbn [lit_union].
  assert (H : forall e acc, print_texpr e = dq +++ acc +++ dq ->
    print_texpr (fold_left (fun e x => XUnion e (XLit x)) ns e) =
    dq +++ (match ns with [] => acc | _ => acc +++ (dq +++ " | " +++ dq) +++ String.concat (dq +++ " | " +++ dq) ns end) +++ dq).
  { induction ns as [|x ns IH]; intros e acc E; cbn [fold_left]; [auto|].
    rewrite (IH (XUnion e (XLit x)) (acc +++ (dq +++ " | " +++ dq) +++ x)).
    - destruct ns; [reflexivity|]. cbn [String.concat]. rewrite !sapp_assoc. reflexivity.
    - cbn [print_texpr]. rewrite E. rewrite !sapp_assoc. reflexivity. }
  rewrite (H (XLit n) n) by reflexivity. destruct ns; reflexivity.
Qed.

Lemma prop_line_text c k d dp l r flat :
  prop_line c k d dp l r (print_texpr flat) = member_text (r_member c k d dp l r flat).
Proof.
  unfold prop_line, member_text, r_member. cbn. rewrite print_ptd. reflexivity.
Qed.

Lemma sunion_app g a b : sunion (sunion g a) b = sunion g (a ++ b).
Proof. unfold sunion. rewrite fold_left_app. reflexivity. Qed.

Definition rtext (g : gset) (r : res ts_error (list decl * list string)) : res ts_error (list string * gset) :=
  match r with Ok (ds, u) => Ok (List.map decl_text ds, sunion g u) | Err e => Err e end.

Section Text.
  Variable c : cconfig.
  Variable o : order.
  Hypothesis o_ok : order_ok o.

  Definition text_f (f : irfield) : Prop := forall p names path g,
    ts_field c o f p (cname_of names) path g =
    match r_field c f names path with
    | Ok (ds, m, u) => Ok (List.map decl_text ds, member_text m, sunion g u)
    | Err e => Err e
    end.
  Definition text_t (t : irtype) : Prop := forall p names sub g,
    ts_type c o t p (cname_of names) sub g =
    match r_type c t names sub with
    | Ok (ds, e, u) => Ok (List.map decl_text ds, print_texpr e, sunion g u)
    | Err e => Err e
    end.
  Definition text_c (x : ircomplex) : Prop := forall p names path g,
    ts_complex c o x p (cname_of names) path g = rtext g (r_complex c x names path).

  Lemma cname_one n : cname_of [n] = n. Proof. reflexivity. Qed.

  Definition last_repeated (repeated : list string) (xs : list ircomplex) (rep : option ircomplex) : option ircomplex :=
    fold_left (fun acc x => if smem (irc_name x) repeated then Some x else acc) xs rep.

  Lemma possibilities_text main repeated xs : Forall text_c xs ->
    forall p i g defs us names rep,
    render_possibilities p i (List.map (prepare c o) xs) repeated main (sunion g us) (List.map decl_text defs) names
      (option_map (prepare c o) rep) =
    match r_possibilities (List.map (r_prepare c) xs) repeated main defs us names (option_map (r_prepare c) rep) with
    | Ok (ds, u, ns, r) => Ok (List.map decl_text ds, ns, sunion g u,
         option_map (prepare c o) (last_repeated repeated xs rep))
    | Err e => Err e
    end.
  Proof.
    induction 1 as [|x xs Hx F IH]; intros p i g defs us names rep; cbn [render_possibilities r_possibilities List.map].
    - reflexivity.
    - cbn [prepare r_prepare po_name rp_name po_render rp_render].
      unfold last_repeated. cbn [fold_left].
      destruct (smem (irc_name x) repeated) eqn:E.
      + exact (IH p (S i) g defs us names (Some x)).
      + rewrite <- (cname_one (irc_name x)) at 1. rewrite Hx. unfold rtext.
        destruct (r_complex c x [irc_name x] (main +++ "_" +++ irc_name x)) as [[ds u]|e]; auto.
        rewrite <- map_app, sunion_app. apply IH.
  Qed.
  Lemma possibilities_rep main repeated xs : forall defs us names rep ds u ns r,
    r_possibilities (List.map (r_prepare c) xs) repeated main defs us names (option_map (r_prepare c) rep) = Ok (ds, u, ns, r) ->
    r = option_map (r_prepare c) (last_repeated repeated xs rep).
  Proof.
    induction xs as [|x xs IH]; intros defs us names rep ds u ns r; cbn [List.map r_possibilities].
    - unfold last_repeated. cbn. congruence.
    - cbn [r_prepare rp_name rp_render]. unfold last_repeated. cbn [fold_left].
      destruct (smem (irc_name x) repeated).
      + apply (IH defs us names (Some x)).
      + destruct (r_complex c x _ _) as [[ds' u']|]; [|discriminate]. apply IH.
  Qed.

  Lemma common_text first others :
    fold_left (fun cm x => filter (fun n => smem n (po_ids x)) cm) (List.map (prepare c o) others) first =
    common_ids first (List.map (r_prepare c) others).
  Proof. unfold common_ids. revert first. induction others as [|x l IH]; intros first; cbn; auto. Qed.
  Lemma repeated_text common xs :
    sunion [] (List.map po_name (filter (fun x => set_eqb common (po_ids x)) (List.map (prepare c o) xs))) =
    repeated_names common (List.map (r_prepare c) xs).
  Proof.
    unfold repeated_names. f_equal. induction xs as [|x l IH]; cbn; auto.
    destruct (set_eqb common (field_ids x)); cbn; rewrite IH; auto.
  Qed.

  Lemma smoosh_text x : text_c x -> forall p names main g,
    smoosh o p (ts_complex c o x) names main g = rtext g (r_complex c x (sort_by (fun x => x) names) main).
  Proof.
    intros H p names main g. unfold smoosh.
    rewrite <- (sort_strings_perm_eq names (o (1 :: p) _ names)) by apply o_ok.
    fold (cname_of (sort_by (fun x => x) names)). apply H.
  Qed.

  Lemma fold_last_in {A} (b : A -> bool) xs : forall acc x,
    fold_left (fun acc x => if b x then Some x else acc) xs acc = Some x -> acc = Some x \/ (In x xs /\ b x = true).
  Proof.
    induction xs as [|y xs IH]; intros acc x; cbn; auto. intros H. apply IH in H.
    destruct H as [H|[H H2]]; auto. destruct (b y) eqn:E; auto. inversion H; subst; auto.
  Qed.

  Lemma collection_text xs : Forall text_c xs -> forall p main g,
    ts_collection o p (List.map (prepare c o) xs) main g =
    rtext g (r_collection (List.map (r_prepare c) xs) main).
  Proof.
    intros F p main g. destruct xs as [|x [|y xs]].
    - reflexivity.
    - inversion F as [|? ? Fx _]; subst. cbn. rewrite <- (cname_one (irc_name x)) at 1. apply Fx.
    - pose proof F as F0. inversion F as [|? ? Fx Fy]; subst.
      unfold ts_collection, r_collection. cbn [List.map].
      change (prepare c o y :: List.map (prepare c o) xs) with (List.map (prepare c o) (y :: xs)).
      change (r_prepare c y :: List.map (r_prepare c) xs) with (List.map (r_prepare c) (y :: xs)).
      rewrite common_text.
      change (prepare c o x :: List.map (prepare c o) (y :: xs)) with (List.map (prepare c o) (x :: y :: xs)).
      change (r_prepare c x :: List.map (r_prepare c) (y :: xs)) with (List.map (r_prepare c) (x :: y :: xs)).
      rewrite repeated_text. rewrite !map_length.
      cbn [prepare r_prepare po_ids rp_ids po_render rp_render].
      set (repeated := repeated_names _ _).
      destruct (Nat.eqb (List.length (x :: y :: xs)) (List.length repeated)).
      + apply smoosh_text; auto.
      + pose proof (possibilities_text main repeated _ F0 p 0 g [] [] [] None) as Hp. cbn [List.map option_map] in Hp.
        cbn [List.map]. change (sunion g []) with g in Hp. rewrite Hp. clear Hp.
        destruct (r_possibilities _ repeated main [] [] [] None) as [[[[ds u] ns] r]|e] eqn:Er; [|reflexivity].
        assert (Hr : r = option_map (r_prepare c) (last_repeated repeated (x :: y :: xs) None)).
        { eapply (possibilities_rep main repeated (x :: y :: xs) [] [] [] None). exact Er. }
        destruct (last_repeated repeated (x :: y :: xs) None) as [z|] eqn:Ez; cbn [option_map] in Hr; subst r.
        * destruct (fold_last_in _ _ _ _ Ez) as [H|[H _]]; [discriminate|].
          rewrite Forall_forall in F0. cbn [option_map prepare po_render r_prepare rp_render].
          rewrite (smoosh_text z (F0 z H)). unfold rtext.
          destruct (r_complex c z _ _) as [[ds' u']|e]; auto.
          rewrite !map_app, sunion_app. reflexivity.
        * cbn. rewrite map_app. reflexivity.
  Qed.

  Lemma render_text : (forall f, text_f f) /\ (forall t, text_t t) /\ (forall x, text_c x).
  Proof.
    apply (ir_mutind text_f text_t text_c).
    - intros k d dp l r t IH p names path g. rewrite ts_field_eq, r_field_eq, IH.
      destruct (r_type c t names _) as [[[ds e] u]|e]; auto. rewrite prop_line_text. auto.
    - intros p names sub g. cbn. rewrite print_lit_union. reflexivity.
    - intros n p names sub g. reflexivity.
    - intros sc p names sub g. reflexivity.
    - intros xs F p names sub g. rewrite ts_type_complex, r_type_complex, collection_text by auto.
      unfold rtext. destruct (r_collection _ sub) as [[ds u]|e]; auto.
    - intros n fs F p names path g. rewrite ts_complex_eq, r_complex_eq.
      assert (H : forall j defs us props,
        t_fields c o p (cname_of names) path j fs (sunion g us) (List.map decl_text defs) (List.map member_text props) =
        rtext g (r_fields c names path fs defs us props)).
      { induction F as [|f fs Hf F IH]; intros j defs us props; cbn [t_fields r_fields].
        - unfold rtext. rewrite map_app. reflexivity.
        - rewrite Hf. destruct (r_field c f names path) as [[[ds m] u]|e]; auto.
          rewrite <- (IH (S j)). rewrite !map_app, sunion_app. reflexivity. }
      exact (H 0 [] [] []).
  Qed.

  Lemma collection_text_all xs p main g :
    ts_collection o p (List.map (prepare c o) xs) main g = rtext g (r_collection (List.map (r_prepare c) xs) main).
  Proof. apply collection_text. apply Forall_forall. intros. apply render_text. Qed.
End Text.
