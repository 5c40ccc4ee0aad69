(** A checker for [introspection], used by the examples. *)
From Verif Require Export RespFacts RegCheck.

Definition lastb {A} (name : A -> string) (n : string) (l : list A) : option A :=
  find (fun x => String.eqb (name x) n) (rev l).
Lemma lastb_ok {A} (name : A -> string) n l x : lastb name n l = Some x <-> last_named name n l x.
Proof.
  unfold lastb. split.
  - induction l as [|y l IH] using rev_ind; [discriminate|]. rewrite rev_app_distr. cbn [rev app find].
    destruct (String.eqb (name y) n) eqn:E.
    + intros H. injection H as ->. apply String.eqb_eq in E. exists l, []. split; auto.
    + intros H. destruct (IH H) as (p & q & -> & En & N). exists p, (q ++ [y]). rewrite <- app_assoc. split; auto. split; auto.
      intros z J. apply in_app_or in J. destruct J as [J|[<-|[]]]; auto. apply String.eqb_neq. auto.
  - intros (p & q & -> & E & N). rewrite rev_app_distr. cbn [rev]. rewrite <- app_assoc.
    assert (Nq : forall z, In z (rev q) -> name z <> n) by (intros z J; apply N; apply in_rev; auto).
    generalize dependent (rev q). intros r Nr. induction r as [|z r IH]; cbn [app find].
    + rewrite E, String.eqb_refl. reflexivity.
    + destruct (String.eqb (name z) n) eqn:Ez; [apply String.eqb_eq in Ez; exfalso; apply (Nr z); cbn; auto|]. apply IH. intros w J. apply Nr. cbn. auto.
Qed.

(** The type reference that introspection encodes *)
Fixpoint ref_of (j : jtype) : option (string * gtype) :=
  match j with
  | JT kind name o =>
      if String.eqb kind "LIST" then match o with Some j => option_map (fun x => (fst x, GList (snd x))) (ref_of j) | None => None end
      else if String.eqb kind "NON_NULL" then match o with Some j => option_map (fun x => (fst x, GNonNull (snd x))) (ref_of j) | None => None end
      else match name, o with Some n, None => Some (kind, GNamed n) | _, _ => None end
  end.
Definition ref_ok (j : jtype) (kind : string) (g : gtype) : bool :=
  (fix eq (j : jtype) (g : gtype) : bool :=
     match j, g with
     | JT k (Some n) None, GNamed m => String.eqb k kind && String.eqb n m
     | JT k None (Some j), GList g => String.eqb k "LIST" && eq j g
     | JT k None (Some j), GNonNull g => String.eqb k "NON_NULL" && eq j g
     | _, _ => false
     end) j g.
Lemma ref_ok_eq j kind g : ref_ok j kind g = true -> j = json_of kind g.
Proof.
  unfold ref_ok. revert g. induction j as [k n|k n j IH] using jtype_rect'; intros g; destruct g as [m|g|g], n as [n|]; cbn [json_of]; try discriminate; rewrite andb_true_iff.
  - intros [E1 E2]. apply String.eqb_eq in E1. apply String.eqb_eq in E2. subst. reflexivity.
  - intros [E1 E2]. apply String.eqb_eq in E1. apply IH in E2. subst. reflexivity.
  - intros [E1 E2]. apply String.eqb_eq in E1. apply IH in E2. subst. reflexivity.
Qed.
Lemma json_ref kind g : In kind output_kinds -> ref_of (json_of kind g) = Some (kind, g).
Proof.
  intros K. induction g as [n|g IH|g IH]; cbn [json_of ref_of].
  - cbn in K. repeat (destruct K as [<-|K]; [reflexivity|]). destruct K.
  - change (option_map (fun x => (fst x, GList (snd x))) (ref_of (json_of kind g)) = Some (kind, GList g)). rewrite IH. reflexivity.
  - change (option_map (fun x => (fst x, GNonNull (snd x))) (ref_of (json_of kind g)) = Some (kind, GNonNull g)). rewrite IH. reflexivity.
Qed.

Fixpoint covb (s : schema) (g' g : gtype) : bool :=
  match g', g with
  | GNamed a, GNamed b => String.eqb a b || (compositeb s a && compositeb s b && forallb (fun T => mems T (possibles s b)) (possibles s a))
  | GList a, GList b => covb s a b
  | GNonNull a, GNonNull b => covb s a b
  | GNonNull a, b => covb s a b
  | _, _ => false
  end.
Lemma covb_ok s g' : forall g, covb s g' g = true -> covariant s g' g.
Proof.
  induction g' as [a|a IH|a IH]; intros [b|b|b]; cbn [covb]; try discriminate; intros H.
  - apply orb_true_iff in H. destruct H as [H|H]; [apply String.eqb_eq in H; subst; constructor|].
    rewrite !andb_true_iff in H. destruct H as [[H1 H2] H3]. apply cov_named; try (apply compositeb_ok; assumption).
    intros T Po. apply possibles_ok in Po. rewrite forallb_forall in H3. apply possibles_ok. apply mems_ok. auto.
  - apply cov_list. auto.
  - apply cov_drop. auto.
  - apply cov_drop. auto.
  - apply cov_nonnull. auto.
Qed.

Definition complex_kind (j : jtypedef) : bool := String.eqb (jt_kind j) "OBJECT" || String.eqb (jt_kind j) "INTERFACE".
Definition fields_of (j : jtypedef) : list jfield := match jt_fields j with Some fs => fs | None => [] end.
Definition find_field (js : jschema) (T n : string) : option (string * gtype) :=
  match lastb jt_name T js with
  | Some j => if complex_kind j then match lastb jf_name n (fields_of j) with Some f => ref_of (jf_type f) | None => None end else None
  | None => None
  end.
Definition field_okb (js : jschema) (s : schema) (wrap : bool) (j : jtypedef) (f : jfield) : bool :=
  negb (String.eqb (jf_name f) "__typename") &&
  match ref_of (jf_type f) with
  | Some (kind, g) =>
      ref_ok (jf_type f) kind g && mems kind output_kinds && valid_gtype g &&
      match lastb jt_name (gbase g) js with Some j' => String.eqb (jt_kind j') kind | None => false end &&
      forallb (fun T => match find_field js T (jf_name f) with Some (_, g') => covb s g' g | None => true end) (possibles s (jt_name j)) &&
      (negb wrap || negb (nullable_list_of_nonnull_lists false g))
  | None => false
  end.
Definition introb (js : jschema) (s : schema) (wrap : bool) : bool :=
  forallb (fun j => negb (String.eqb (jt_name j) "__typename") && forallb (field_okb js s wrap j) (fields_of j)) js.

Section Check.
  Variables (js : jschema) (s : schema) (wrap : bool).
  Hypothesis L : load_schema js = Ok s.
  Hypothesis H : introb js s wrap = true.

  Lemma one_field j f : In j js -> In f (fields_of j) -> field_okb js s wrap j f = true.
  Proof.
    intros J F. unfold introb in H. rewrite forallb_forall in H. specialize (H j J). apply andb_true_iff in H. destruct H as [_ X].
    rewrite forallb_forall in X. auto.
  Qed.
  Lemma declared_ref P n kind g : declared js P n kind g -> exists j f, In j js /\ jt_name j = P /\ In f (fields_of j) /\ jf_name f = n /\
    ref_of (jf_type f) = Some (kind, g) /\ In kind output_kinds /\ find_field js P n = Some (kind, g).
  Proof.
    intros (j & fs & f & Lj & K & Ef & Lf & E). pose proof (last_in _ _ _ _ Lj) as [J En]. pose proof (last_in _ _ _ _ Lf) as [F Efn].
    exists j, f. split; auto. split; auto. assert (If : In f (fields_of j)) by (unfold fields_of; rewrite Ef; auto). split; auto. split; auto.
    pose proof (one_field j f J If) as X. unfold field_okb in X. apply andb_true_iff in X. destruct X as [_ X].
    destruct (ref_of (jf_type f)) as [[kind' g']|] eqn:Er; [|discriminate]. rewrite !andb_true_iff in X. destruct X as [[[[[X1 X2] _] _] _] _].
    apply mems_ok in X2. apply ref_ok_eq in X1.
    assert (Ek : kind = kind' /\ g = g').
    { rewrite X1 in E. clear - E X2. revert g E. induction g' as [b|g' IH|g' IH]; intros [m|g|g] E; cbn [json_of] in E; try discriminate;
        injection E as E; subst; auto; try (apply IH in E; destruct E; subst; auto); try (cbn in X2; intuition discriminate). }
    destruct Ek as [-> ->]. split; auto. split; auto. unfold find_field. rewrite (proj2 (lastb_ok _ _ _ _) Lj).
    unfold complex_kind. destruct K as [-> | ->]; cbn [String.eqb]; cbn; unfold fields_of; rewrite Ef, (proj2 (lastb_ok _ _ _ _) Lf); auto.
  Qed.
  Lemma introb_ok : introspection js s.
  Proof.
    constructor; auto.
    - intros P j fs n f Lj K Ef Lf. pose proof (last_in _ _ _ _ Lj) as [J En]. pose proof (last_in _ _ _ _ Lf) as [F Efn].
      assert (If : In f (fields_of j)) by (unfold fields_of; rewrite Ef; auto).
      pose proof (one_field j f J If) as X. unfold field_okb in X. apply andb_true_iff in X. destruct X as [_ X].
      destruct (ref_of (jf_type f)) as [[kind g]|]; [|discriminate]. rewrite !andb_true_iff in X. destruct X as [[[[[X1 X2] X3] _] _] _].
      exists kind, g. split; [apply ref_ok_eq; auto|]. split; auto. apply mems_ok; auto.
    - intros P n kind g D. destruct (declared_ref _ _ _ _ D) as (j & f & J & En & F & Ef & Er & K & _).
      pose proof (one_field j f J F) as X. unfold field_okb in X. rewrite Er in X. rewrite !andb_true_iff in X. destruct X as [_ [[[_ X] _] _]].
      destruct (lastb jt_name (gbase g) js) as [j'|] eqn:El; [|discriminate]. apply lastb_ok in El. apply String.eqb_eq in X. eauto.
    - split.
      + intros j fs f J Ef F E. assert (If : In f (fields_of j)) by (unfold fields_of; rewrite Ef; auto).
        pose proof (one_field j f J If) as X. unfold field_okb in X. rewrite E in X. discriminate.
      + intros j J E. unfold introb in H. rewrite forallb_forall in H. specialize (H j J). rewrite E in H. discriminate.
    - intros P T n kind kind' g g' D Po D'. destruct (declared_ref _ _ _ _ D) as (j & f & J & En & F & Ef & Er & K & _).
      destruct (declared_ref _ _ _ _ D') as (_ & _ & _ & _ & _ & _ & _ & _ & Fd).
      pose proof (one_field j f J F) as X. unfold field_okb in X. rewrite Er in X. rewrite !andb_true_iff in X. destruct X as [_ [[_ X] _]].
      rewrite forallb_forall in X. rewrite En in X. apply possibles_ok in Po. specialize (X T Po). rewrite Ef, Fd in X. apply covb_ok. auto.
  Qed.
  Lemma wrapsb_ok : wrap = true -> plain_wrappers js.
  Proof.
    intros Ew P n kind g D. destruct (declared_ref _ _ _ _ D) as (j & f & J & En & F & Ef & Er & K & _).
    pose proof (one_field j f J F) as X. unfold field_okb in X. rewrite Er, Ew in X. rewrite !andb_true_iff in X. destruct X as [_ [_ X]].
    cbn in X. apply negb_true_iff in X. exact X.
  Qed.
End Check.

(** ** Computing collected fields, to show that a value is a response *)
Section Cols.
  Variables (js : jschema) (s : schema) (frags : amap string fragdef) (act : list directive -> bool) (custom : string -> value -> Prop).
  Definition active_of (d : list directive) : Prop := act d = true.
  Definition col : Type := (string * string * list selection)%type.

  Fixpoint cols (fuel : nat) (T : string) (l : list selection) : option (list col) :=
    match fuel with
    | O => None
    | S fuel =>
        (fix go (l : list selection) : option (list col) :=
           match l with
           | [] => Some []
           | x :: l =>
               match go l with
               | None => None
               | Some r =>
                   match x with
                   | SField _ al n _ d sub => Some (if act d then (response_key al n, n, sub) :: r else r)
                   | SInline _ c d sub =>
                       if act d && match c with Some c => mems T (possibles s c) | None => true end
                       then option_map (fun a => a ++ r) (cols fuel T sub) else Some r
                   | SSpread _ name d =>
                       match aget name frags with
                       | Some fd => if act d && mems T (possibles s (fr_cond fd)) then option_map (fun a => a ++ r) (cols fuel T (fr_sels fd)) else Some r
                       | None => Some r
                       end
                   end
               end
           end) l
    end.
  Lemma collects_in T l k n ss : collects s frags active_of T (fun x => In x l) k n ss <-> exists x, In x l /\ collects s frags active_of T (fun y => y = x) k n ss.
  Proof.
    split.
    - intros C. inversion C; subst; eexists; (split; [eassumption|]); [eapply col_field|eapply col_inline|eapply col_spread]; eauto.
    - intros (x & I & C). eapply collects_ext; [|exact C]. intros y ->. auto.
  Qed.
  Lemma cols_ok fuel : forall T l r, cols fuel T l = Some r -> forall k n ss, collects s frags active_of T (fun x => In x l) k n ss <-> In (k, n, ss) r.
  Proof.
    induction fuel as [|fuel IH]; intros T l r E; [discriminate|]. cbn [cols] in E. revert r E.
    induction l as [|x l IHl]; intros r E k n ss.
    - injection E as <-. rewrite collects_in. split; [intros (x & [] & _)|intros []].
    - match type of E with match ?g with _ => _ end = _ => destruct g as [r0|] eqn:E0; [|discriminate] end. specialize (IHl _ eq_refl k n ss).
      rewrite collects_in in *.
      assert (X : (exists y, In y (x :: l) /\ collects s frags active_of T (fun z => z = y) k n ss) <->
                  collects s frags active_of T (fun z => z = x) k n ss \/ In (k, n, ss) r0).
      { rewrite <- IHl. split.
        - intros (y & [<-|I] & C); eauto.
        - intros [C|(y & I & C)]; [exists x|exists y]; split; auto; [left|right]; auto. }
      rewrite X. clear X IHl.
      destruct x as [p al m a d sub|p name d|p c d sub].
      + destruct (act d) eqn:Ed; injection E as <-.
        * cbn [In]. apply or_iff_compat_r. split.
          -- intros C. inversion C as [M0 p0 al0 n0 a0 d0 s0 I| |]; subst; try discriminate. injection I as <- <- <- <- <- <-. auto.
          -- intros I. injection I as <- <- <-. eapply col_field; [reflexivity|exact Ed].
        * split; auto. intros [C|C]; auto. inversion C as [M0 p0 al0 n0 a0 d0 s0 I A| |]; subst; try discriminate.
          injection I as -> -> -> -> -> ->. unfold active_of in A. congruence.
      + assert (X : collects s frags active_of T (fun z => z = SSpread p name d) k n ss <->
           exists fd, aget name frags = Some fd /\ act d && mems T (possibles s (fr_cond fd)) = true /\ collects s frags active_of T (fun z => In z (fr_sels fd)) k n ss).
        { split.
          - intros C. inversion C as [| |M0 p0 n0 d0 fd k0 m0 s0 I A G Po C']; subst; try discriminate. injection I as -> -> ->.
            exists fd. split; auto. split; auto. unfold active_of in A. rewrite A. apply mems_ok. apply possibles_ok. auto.
          - intros (fd & G & A & C). apply andb_true_iff in A. destruct A as [A1 A2]. eapply col_spread; eauto. apply possibles_ok. apply mems_ok. auto. }
        rewrite X. clear X. destruct (aget name frags) as [fd|] eqn:Eg.
        * destruct (act d && mems T (possibles s (fr_cond fd))) eqn:Ea.
          -- destruct (cols fuel T (fr_sels fd)) as [a|] eqn:Ec; [|discriminate]. injection E as <-. rewrite in_app_iff, <- (IH _ _ _ Ec).
             apply or_iff_compat_r. split; [intros (fd' & G & _ & C); injection G as <-; auto|intros C; exists fd; auto].
          -- injection E as <-. split; auto. intros [(fd' & G & A & _)|C]; auto. injection G as <-. congruence.
        * injection E as <-. split; auto. intros [(fd' & G & A & _)|C]; auto. discriminate.
      + assert (X : collects s frags active_of T (fun z => z = SInline p c d sub) k n ss <->
           act d && match c with Some c => mems T (possibles s c) | None => true end = true /\ collects s frags active_of T (fun z => In z sub) k n ss).
        { split.
          - intros C. inversion C as [|M0 p0 c0 d0 sub0 k0 m0 s0 I A Po C'|]; subst; try discriminate. injection I as -> -> -> ->.
            split; auto. unfold active_of in A. rewrite A. destruct c; auto. apply mems_ok. apply possibles_ok. auto.
          - intros (A & C). apply andb_true_iff in A. destruct A as [A1 A2]. eapply col_inline; eauto. destruct c; auto. apply possibles_ok. apply mems_ok. auto. }
        rewrite X. clear X. destruct (act d && match c with Some c => mems T (possibles s c) | None => true end) eqn:Ea.
        * destruct (cols fuel T sub) as [a|] eqn:Ec; [|discriminate]. injection E as <-. rewrite in_app_iff, <- (IH _ _ _ Ec).
          apply or_iff_compat_r. tauto.
        * injection E as <-. split; auto. intros [[A _]|C]; auto. discriminate.
  Qed.

  Definition merged_subs (r : list col) (k : string) : list selection :=
    flat_map (fun x => if String.eqb (fst (fst x)) k then snd x else []) r.
  Lemma respond fuel n T l r kvs : cols fuel T l = Some r ->
    forallb (fun k => mems k (List.map (fun x : col => fst (fst x)) r)) (List.map fst kvs) = true ->
    forallb (fun k => mems k (List.map fst kvs)) (List.map (fun x : col => fst (fst x)) r) = true ->
    (forall k x, In (k, x) kvs -> exists fld ss, In (k, fld, ss) r /\
       (fld = "__typename" /\ x = VStr T \/
        exists kind g, declared js T fld kind g /\
          gvalues (fun b y => leaf_value js custom b y \/ exists T', possible s b T' /\
             object_response js s frags active_of custom n T' (fun z => In z (merged_subs r k)) y) g x)) ->
    object_response js s frags active_of custom (S n) T (fun x => In x l) (VObj kvs).
  Proof.
    intros E K1 K2 F. cbn [object_response]. exists kvs. split; auto. pose proof (cols_ok _ _ _ _ E) as C. split.
    - intros k. split.
      + intros I. rewrite forallb_forall in K1. specialize (K1 k I). apply mems_ok in K1. apply in_map_iff in K1.
        destruct K1 as ([[k' fld] ss] & <- & J). exists fld, ss. apply C. auto.
      + intros (fld & ss & J). apply C in J. rewrite forallb_forall in K2. apply mems_ok. apply K2. apply in_map_iff. exists (k, fld, ss). auto.
    - intros k x I. destruct (F k x I) as (fld & ss & J & X). exists fld, ss. split; [apply C; auto|]. destruct X as [X|(kind & g & D & G)]; auto.
      right. exists kind, g. split; auto. eapply gvalues_mono; [|exact G]. intros y [Y|(T' & Po & R)]; auto. right. exists T'. split; auto.
      eapply response_ext; [|exact R]. intros z. unfold merged_subs. rewrite in_flat_map. split.
      + intros ([[k' fld'] ss'] & J' & Iz). cbn [fst snd] in Iz. destruct (String.eqb k' k) eqn:Ek; [|destruct Iz]. apply String.eqb_eq in Ek. subst k'.
        exists fld', ss'. split; auto. apply C. auto.
      + intros (fld' & ss' & J' & Iz). exists (k, fld', ss'). split; [apply C; auto|]. cbn [fst snd]. rewrite String.eqb_refl. auto.
  Qed.
End Cols.

Definition find_decl (js : jschema) (P n : string) : option (string * gtype) :=
  match lastb jt_name P js with
  | Some j => if complex_kind j then
      match jt_fields j with
      | Some fs => match lastb jf_name n fs with
                   | Some f => match ref_of (jf_type f) with Some (k, g) => if ref_ok (jf_type f) k g then Some (k, g) else None | None => None end
                   | None => None
                   end
      | None => None
      end else None
  | None => None
  end.
Lemma find_declared js P n kind g : find_decl js P n = Some (kind, g) -> declared js P n kind g.
Proof.
  unfold find_decl. destruct (lastb jt_name P js) as [j|] eqn:Ej; [|discriminate].
  destruct (complex_kind j) eqn:Ek; [|discriminate]. destruct (jt_fields j) as [fs|] eqn:Efs; [|discriminate].
  destruct (lastb jf_name n fs) as [f|] eqn:Ef; [|discriminate]. destruct (ref_of (jf_type f)) as [[k g']|]; [|discriminate].
  destruct (ref_ok (jf_type f) k g') eqn:R; [|discriminate]. intros E. injection E as -> ->. apply ref_ok_eq in R.
  exists j, fs, f. split; [apply lastb_ok; auto|]. split; [|split; [auto|split; [apply lastb_ok; auto|auto]]].
  unfold complex_kind in Ek. apply orb_true_iff in Ek. destruct Ek as [Ek|Ek]; apply String.eqb_eq in Ek; auto.
Qed.

Section Respb.
  Variables (js : jschema) (s : schema) (frags : amap string fragdef) (act : list directive -> bool).
  Definition no_custom (n : string) (v : value) : Prop := False.
  Definition is_null (v : value) : bool := match v with VNull => true | _ => false end.
  Fixpoint gvb (inner : string -> value -> bool) (g : gtype) (v : value) : bool :=
    match g with
    | GNamed n => is_null v || inner n v
    | GList g => is_null v || match v with VList l => forallb (gvb inner g) l | _ => false end
    | GNonNull g => gvb inner g v && negb (is_null v)
    end.
  Lemma gvb_ok (inner : string -> value -> bool) (inner' : string -> value -> Prop) g :
    (forall n y, inner n y = true -> inner' n y) -> forall v, gvb inner g v = true -> gvalues inner' g v.
  Proof.
    intros H. induction g as [n|g IH|g IH]; intros v; cbn [gvb gvalues].
    - rewrite orb_true_iff. intros [E|E]; auto. destruct v; auto; discriminate.
    - rewrite orb_true_iff. intros [E|E]; [destruct v; auto; discriminate|]. destruct v; try discriminate. right. exists l. split; auto.
      rewrite forallb_forall in E. apply Forall_forall. auto.
    - rewrite andb_true_iff. intros [E N]. split; auto. destruct v; discriminate.
  Qed.
  Definition leafb (b : string) (v : value) : bool :=
    match lastb jt_name b js with
    | Some j =>
        if String.eqb (jt_kind j) "ENUM" then match v, jt_enum_values j with VStr e, Some vs => mems e vs | _, _ => false end
        else if String.eqb (jt_kind j) "SCALAR" then
          match scalar_of_name b, v with ScBoolean, VBool _ => true | ScString, VStr _ => true | ScId, VStr _ => true
          | ScInt, VNum _ => true | ScFloat, VNum _ => true | _, _ => false end
        else false
    | None => false
    end.
  Lemma leafb_ok b v : leafb b v = true -> leaf_value js no_custom b v.
  Proof.
    unfold leafb. destruct (lastb jt_name b js) as [j|] eqn:L; [|discriminate]. apply lastb_ok in L. intros H. exists j. split; auto.
    destruct (String.eqb (jt_kind j) "ENUM") eqn:E1.
    - apply String.eqb_eq in E1. left. split; auto. destruct v as [| | |e| |]; try discriminate. destruct (jt_enum_values j) as [vs|]; [|discriminate].
      apply mems_ok in H. eauto.
    - destruct (String.eqb (jt_kind j) "SCALAR") eqn:E2; [|discriminate]. apply String.eqb_eq in E2. right. split; auto.
      exists (scalar_of_name b). split; [apply scalar_is_of_name|]. destruct (scalar_of_name b), v; try discriminate; cbn; eauto.
  Qed.
  Fixpoint respb (fuel : nat) (T : string) (l : list selection) (v : value) : bool :=
    match fuel with
    | O => false
    | S n =>
        match v, cols s frags act fuel T l with
        | VObj kvs, Some r =>
            forallb (fun k => mems k (List.map (fun x : col => fst (fst x)) r)) (List.map fst kvs) &&
            forallb (fun k => mems k (List.map fst kvs)) (List.map (fun x : col => fst (fst x)) r) &&
            forallb (fun kx => existsb (fun c : col => String.eqb (fst (fst c)) (fst kx) &&
               (String.eqb (snd (fst c)) "__typename" && match snd kx with VStr t => String.eqb t T | _ => false end ||
                match find_decl js T (snd (fst c)) with
                | Some (_, g) => gvb (fun b y => leafb b y || existsb (fun T' => respb n T' (merged_subs r (fst kx)) y) (possibles s b)) g (snd kx)
                | None => false
                end)) r) kvs
        | _, _ => false
        end
    end.
  Lemma respb_ok fuel : forall T l v, respb fuel T l v = true ->
    object_response js s frags (active_of act) no_custom fuel T (fun x => In x l) v.
  Proof.
    induction fuel as [|n IH]; intros T l v H; [discriminate|]. cbn [respb] in H. destruct v as [| | | | |kvs]; try discriminate.
    destruct (cols s frags act (S n) T l) as [r|] eqn:Ec; [|discriminate]. rewrite !andb_true_iff in H. destruct H as [[H1 H2] H3].
    eapply respond; eauto. intros k x I. rewrite forallb_forall in H3. specialize (H3 _ I). apply existsb_exists in H3.
    destruct H3 as ([[k' fld] ss] & J & H3). cbn [fst snd] in H3. apply andb_true_iff in H3. destruct H3 as [E H3]. apply String.eqb_eq in E. subst k'.
    exists fld, ss. split; auto. apply orb_true_iff in H3. destruct H3 as [H3|H3].
    - apply andb_true_iff in H3. destruct H3 as [E1 E2]. apply String.eqb_eq in E1. destruct x as [| | |t| |]; try discriminate. apply String.eqb_eq in E2. subst. auto.
    - right. destruct (find_decl js T fld) as [[kind g]|] eqn:Ed; [|discriminate]. exists kind, g. split; [apply find_declared; auto|].
      revert H3. apply gvb_ok. intros b y Y. apply orb_true_iff in Y. destruct Y as [Y|Y]; [left; apply leafb_ok; auto|]. right.
      apply existsb_exists in Y. destruct Y as (T' & I' & Y). exists T'. split; [apply possibles_ok; auto|]. auto.
  Qed.
End Respb.
