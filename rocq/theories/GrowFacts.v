(** Lemmas for C81: what is valid in a schema and what it collects, in a schema with additions. *)
From Verif Require Export SpecGrow.
From Verif Require Import Rewrite PropC18 PropC48 ProjectFacts LoadFacts.

Scheme tyok_mut := Minimality for ty_ok Sort Prop
with collok_mut := Minimality for coll_ok Sort Prop
with fieldsok_mut := Minimality for fields_ok Sort Prop.
Combined Scheme collok_mutind from tyok_mut, collok_mut, fieldsok_mut.

Section Grow.
  Variables s s' : schema.
  Variable frags : amap string fragdef.
  Hypothesis gr : grown s s'.
  Hypothesis Co' : consistent s'.

  Lemma composite_grown c : composite s c -> composite s' c.
  Proof.
    intros (t & E & K). destruct (gr _ _ E) as (t' & E' & G & _). exists t'. split; auto. destruct G; auto.
  Qed.
  Lemma possible_grown c T : possible s c T -> possible s' c T.
  Proof.
    intros (t & E & K). destruct (gr _ _ E) as (t' & E' & G & _). exists t'. split; auto. destruct G as [| ? ? ? ? ? ? _ Sm| ? ? ? ? ? ? _ Sm| | |]; auto; apply Sm; auto.
  Qed.
  Lemma possible_back c T : composite s c -> possible s' c T -> possible s c T.
  Proof.
    intros (t & E & K) (t1 & E1 & K1). destruct (gr _ _ E) as (t' & E' & G & _). rewrite E1 in E'. injection E' as <-.
    exists t. split; auto. destruct G as [| ? ? ? ? ? ? _ Sm| ? ? ? ? ? ? _ Sm| | |]; auto; apply Sm; auto.
  Qed.
  Lemma field_grown c n f : field_of s c n f -> field_of s' c n f.
  Proof.
    intros (t & E & K). destruct (gr _ _ E) as (t' & E' & G & _). exists t'. split; auto.
    destruct G as [? ? Fk|? ? ? ? ? ? Fk _|? ? ? ? ? ? Fk _| | |]; auto.
  Qed.
  Lemma field_once c n f g : field_of s' c n f -> field_of s' c n g -> f = g.
  Proof.
    intros (t & E & K) (t' & E' & K'). rewrite E in E'. injection E' as <-. destruct (st_def t); try contradiction; congruence.
  Qed.
  (** A leaf stays a leaf *)
  Lemma leaf_grown c n f : field_of s c n f -> kind_agrees s f -> ~ composite s (ft_name (sf_type f)) -> ~ composite s' (ft_name (sf_type f)).
  Proof.
    intros F K Nc C. pose proof (Co' _ _ _ (field_grown _ _ _ F)) as K'.
    destruct (fdef_is_complex (ft_def (sf_type f))) eqn:D; [apply Nc; eapply kind_composite; eauto|].
    unfold kind_agrees in K'. destruct (ft_def (sf_type f)); try discriminate D; try (apply K'; exact C).
    destruct K' as (vs & K'), C as (t & E & C). rewrite E in K'. cbn in K'. injection K' as K'. rewrite K' in C. exact C.
  Qed.
  Hypothesis Co : consistent s.

  Lemma valid_grown :
    (forall P x, valid_sel s frags P x -> valid_sel s' frags P x) /\ (forall P l, valid_sels s frags P l -> valid_sels s' frags P l).
  Proof.
    apply (valid_mutind s frags (fun P x _ => valid_sel s' frags P x) (fun P l _ => valid_sels s' frags P l)).
    - intros P p al n a d f F Nc. eapply valid_leaf; [apply field_grown; eauto|]. eapply leaf_grown; eauto.
    - intros P p al n a d f sub F C Ne _ V. eapply valid_composite; [apply field_grown; eauto|apply composite_grown; auto|auto|auto].
    - intros. constructor; auto. apply composite_grown; auto.
    - intros. econstructor; eauto. apply composite_grown; auto.
    - constructor.
    - constructor; auto.
  Qed.

  (** What is collected *)
  Lemma occ_grown T P M k P' n ss : occ s frags T P M k P' n ss -> occ s' frags T P M k P' n ss.
  Proof.
    induction 1 as [P M p al f a d sub I|P M p c d sub k P' f ss I Po _ IH|P M p name d fd k P' f ss I A Po _ IH].
    - econstructor; eauto.
    - eapply occ_inline; eauto. apply possible_grown. auto.
    - eapply occ_spread; eauto. apply possible_grown. auto.
  Qed.
  Lemma sels_each P l : valid_sels s frags P l -> forall x, In x l -> valid_sel s frags P x.
  Proof. induction 1 as [|P x l V _ IH]; intros y I; [destruct I|destruct I as [<-|I]; auto]. Qed.
  Lemma occ_back T P M k P' n ss : occ s' frags T P M k P' n ss -> (forall x, M x -> valid_sel s frags P x) ->
    occ s frags T P M k P' n ss /\ exists f, field_of s P' n f /\ (composite s (ft_name (sf_type f)) -> forall x, In x ss -> valid_sel s frags (ft_name (sf_type f)) x).
  Proof.
    induction 1 as [P M p al f a d sub I|P M p c d sub k P' f ss I Po _ IH|P M p name d fd k P' f ss I A Po _ IH]; intros V.
    - split; [econstructor; eauto|]. specialize (V _ I). inversion V as [? ? ? ? ? ? g F Nc|? ? ? ? ? ? g ? F C Ne Vs| |]; subst; exists g; (split; [auto|]).
      + intros _ x [].
      + intros _. apply sels_each. auto.
    - specialize (V _ I). inversion V as [| |? ? ? ? ? C Vs|]; subst. destruct (IH (sels_each _ _ Vs)) as [X Y]. split; auto.
      eapply occ_inline; eauto. apply possible_back; auto.
    - specialize (V _ I). inversion V as [| | |? ? ? ? fd' A' C Vs]; subst. rewrite A in A'. injection A' as <-. destruct (IH (sels_each _ _ Vs)) as [X Y]. split; auto.
      eapply occ_spread; eauto. apply possible_back; auto.
  Qed.
  Lemma focc_grown T P (M M' : selset) : (forall x, M x -> valid_sel s frags P x) -> (forall x, M x <-> M' x) ->
    forall k f ss, focc s frags T P M k f ss <-> focc s' frags T P M' k f ss.
  Proof.
    intros V I k f ss. split; intros (P' & n & X & F); exists P', n.
    - split; [|apply field_grown; auto]. eapply occ_set; [|apply occ_grown; exact X]. apply I.
    - assert (X' : occ s' frags T P M k P' n ss) by (eapply occ_set; [|exact X]; apply I).
      destruct (occ_back _ _ _ _ _ _ _ X' V) as (Y & g & G & _). split; auto. rewrite (field_once _ _ _ _ F (field_grown _ _ _ G)). auto.
  Qed.
  Lemma focc_good T P (M : selset) k f ss : (forall x, M x -> valid_sel s frags P x) -> focc s frags T P M k f ss ->
    kind_agrees s f /\ (composite s (ft_name (sf_type f)) -> forall x, In x ss -> valid_sel s frags (ft_name (sf_type f)) x).
  Proof.
    intros V (P' & n & X & F). split; [eapply Co; eauto|]. destruct (occ_back _ _ _ _ _ _ _ (occ_grown _ _ _ _ _ _ _ X) V) as (_ & g & G & W).
    rewrite (field_once _ _ _ _ (field_grown _ _ _ F) (field_grown _ _ _ G)). exact W.
  Qed.
  Lemma merged_good (O : occset) k typ : (forall k f ss, O k f ss -> composite s (ft_name (sf_type f)) -> forall x, In x ss -> valid_sel s frags (ft_name (sf_type f)) x) ->
    composite s typ -> forall x, merged O k typ x -> valid_sel s frags typ x.
  Proof. intros V C x (f & ss & X & <- & I). eauto. Qed.

  Lemma coll_grown :
    (forall f M t, ty_ok s frags f M t -> kind_agrees s f ->
       (composite s (ft_name (sf_type f)) -> forall x, M x -> valid_sel s frags (ft_name (sf_type f)) x) ->
       forall M' : selset, (forall x, M x <-> M' x) -> ty_ok s' frags f M' t) /\
    (forall P M cs, coll_ok s frags P M cs -> composite s P -> (forall x, M x -> valid_sel s frags P x) ->
       forall M' : selset, (forall x, M x <-> M' x) -> coll_ok s' frags P M' cs) /\
    (forall O fs, fields_ok s frags O fs ->
       (forall k f ss, O k f ss -> kind_agrees s f /\ (composite s (ft_name (sf_type f)) -> forall x, In x ss -> valid_sel s frags (ft_name (sf_type f)) x)) ->
       forall O' : occset, (forall k f ss, O k f ss <-> O' k f ss) -> fields_ok s' frags O' fs).
  Proof.
    apply collok_mutind.
    - intros f M D _ _ M' _. constructor; auto.
    - intros f M sc D _ _ M' _. constructor; auto.
    - intros f M D _ _ M' _. constructor; auto.
    - intros f M cs D _ IH K V M' I. constructor; auto. assert (C : composite s (ft_name (sf_type f))) by (eapply kind_composite; eauto). auto.
    - intros P M cs So Nd Ps _ IH C V M' I. constructor; auto.
      + intros T. rewrite Ps. split; [apply possible_grown|apply possible_back; auto].
      + intros T fs J. eapply IH; eauto; [intros k f ss; apply focc_good; auto|]. apply focc_grown; auto.
    - intros O es So Nd Fo _ IH Cv V O' I. constructor; auto.
      + intros k f t J. destruct (Fo _ _ _ J) as (ss & X). exists ss. apply I. auto.
      + intros k f t J. destruct (Fo _ _ _ J) as (ss & X). eapply IH; eauto; [apply (V _ _ _ X)| |].
        * intros C. apply merged_good; auto. intros k0 f0 ss0 X0. apply (V _ _ _ X0).
        * apply merged_iff. auto.
      + intros k f ss X. apply I in X. eauto.
  Qed.
  Lemma settled_grown P M : Rewrite.settled s frags P M -> composite s P -> (forall x, M x -> valid_sel s frags P x) ->
    forall M' : selset, (forall x, M x <-> M' x) -> Rewrite.settled s' frags P M'.
  Proof.
    induction 1 as [P M H1 _ IH]. intros C V M' I. constructor.
    - intros T k f ss f' ss' Po F F'. apply possible_back in Po; auto. apply (focc_grown T P M M' V I) in F, F'. eauto.
    - intros T k f ss Po F Cf. apply possible_back in Po; auto. apply (focc_grown T P M M' V I) in F.
      destruct (focc_good _ _ _ _ _ _ V F) as [K _].
      assert (C' : composite s (ft_name (sf_type f))).
      { destruct (fdef_is_complex (ft_def (sf_type f))) eqn:D; [eapply kind_composite; eauto|]. exfalso.
        destruct F as (P' & n & _ & F). refine (leaf_grown _ _ _ F K _ Cf). intros Cs. unfold kind_agrees in K.
        destruct (ft_def (sf_type f)); try discriminate D; try (apply K; exact Cs).
        destruct K as (vs & K), Cs as (t & E & Cs). rewrite E in K. cbn in K. injection K as K. rewrite K in Cs. exact Cs. }
      eapply IH; eauto.
      + apply merged_good; auto. intros k0 f0 ss0 X0. apply (focc_good _ _ _ _ _ _ V X0).
      + apply merged_iff. apply focc_grown; auto.
  Qed.
End Grow.

(** Fragments matter through look-ups only *)
Lemma settled_ext s frags frags' : (forall n, aget n frags = aget n frags') -> forall P M, Rewrite.settled s frags P M ->
  forall M' : selset, (forall x, M x <-> M' x) -> Rewrite.settled s frags' P M'.
Proof.
  intros Ext P M. induction 1 as [P M H1 _ H2]. intros M' I. constructor.
  - intros T k f ss f' ss' Po A B. eapply H1; eauto; eapply focc_iff; eauto.
  - intros T k f ss Po A C. eapply H2; eauto; [eapply focc_iff; eauto|]. apply merged_iff. apply focc_iff; auto.
Qed.

(** ** Variables and the module *)
Section Module.
  Variables s s' : schema.
  Hypothesis gr : grown s s'.

  Lemma vtype_grown name p t : vtype_of_name s name p = Ok t -> vtype_of_name s' name p = Ok t.
  Proof.
    unfold vtype_of_name. repeat match goal with |- context [String.eqb name ?x] => destruct (String.eqb name x); auto end.
    destruct (get_type s name) as [u|] eqn:E; [|discriminate]. destruct (gr _ _ E) as (u' & -> & _). auto.
  Qed.
  Lemma build_grown d v : build_variable s d = Ok v -> build_variable s' d = Ok v.
  Proof.
    unfold build_variable. destruct (unwrap_var_def d) as [[m g]|]; [|discriminate].
    destruct (vtype_of_name s g (vd_pos d)) as [t|] eqn:E; [|discriminate]. rewrite (vtype_grown _ _ _ E). auto.
  Qed.
  Lemma variables_grown ds vs : try_build_variable_ir s ds = Ok vs -> try_build_variable_ir s' ds = Ok vs.
  Proof.
    assert (X : forall l ws, collect_res (List.map (build_variable s) l) = Ok ws -> collect_res (List.map (build_variable s') l) = Ok ws).
    { induction l as [|d l IH]; cbn [List.map collect_res]; auto. intros ws. destruct (build_variable s d) as [v|] eqn:E; [|discriminate].
      rewrite (build_grown _ _ E). destruct (collect_res (List.map (build_variable s) l)) as [r|]; [|discriminate]. rewrite (IH _ eq_refl). auto. }
    unfold try_build_variable_ir. destruct ds as [|d ds]; auto. destruct (collect_res (List.map (build_variable s) (d :: ds))) as [r|] eqn:E; [|discriminate].
    rewrite (X _ _ E). auto.
  Qed.
  Lemma type_name_grown c v g r : variable_type_name c s v g = Ok r -> variable_type_name c s' v g = Ok r.
  Proof.
    unfold variable_type_name. destruct (v_type v) as [| | | | |name]; auto. destruct (get_type s name) as [t|] eqn:E; [|discriminate].
    destruct (gr _ _ E) as (t' & -> & G & _). destruct G; auto.
  Qed.
  Lemma types_grown c vs : forall g r, variable_types c s vs g = Ok r -> variable_types c s' vs g = Ok r.
  Proof.
    induction vs as [|v vs IH]; cbn [variable_types]; auto. intros g r. destruct (variable_type_name c s v g) as [[tn g']|] eqn:E; [|discriminate].
    rewrite (type_name_grown _ _ _ _ E). destruct (variable_types c s vs g') as [[q g'']|] eqn:E'; [|discriminate]. rewrite (IH _ _ E'). auto.
  Qed.
  Lemma ir_grown c o op co : compile_ir c o s op = Ok co -> compile_ir c o s' op = Ok co.
  Proof.
    unfold compile_ir. destruct (ts_collection _ _ _ _ _) as [[defs g]|]; [|discriminate]. unfold variables_definition.
    destruct (op_variables op) as [vs|]; auto. destruct (variable_types c s vs g) as [[r g']|] eqn:E; [|discriminate]. rewrite (types_grown _ _ _ _ E). auto.
  Qed.
End Module.

(** ** Enums and inputs *)
Section Inputs.
  Variables s s' : schema.
  Hypothesis gr : grown s s'.
  Hypothesis ci : inputs_consistent s.

  Lemma global_grown n : global_type s n -> global_type s' n.
  Proof. intros (t & E & K). destruct (gr _ _ E) as (t' & E' & G & _). exists t'. split; auto. destruct G; auto. Qed.
  Lemma refers_grown n m : refers s n m -> refers s' n m.
  Proof.
    intros (t & E & nm & fs & fn & f & D & M). destruct (gr _ _ E) as (t' & E' & G & _). exists t'. split; auto.
    rewrite D in G. inversion G as [| | | | |? ? fs' Pm]; subst. exists nm, fs', fn, f. destruct M as [M1 M2]. split; auto. split; auto. apply (Permutation_in _ Pm). exact M1.
  Qed.
  Lemma refers_back n m : global_type s n -> refers s' n m -> refers s n m /\ global_type s m.
  Proof.
    intros (t & E & K) (t1 & E1 & nm & fs & fn & f & D & M). destruct (gr _ _ E) as (t' & E' & G & _). rewrite E1 in E'. injection E' as <-.
    rewrite D in G. inversion G as [| | | | |? fs0 ? Pm Et]; subst. destruct M as [M1 M2]. assert (R : refers s n m).
    { exists t. split; auto. exists nm, fs0, fn, f. split; auto. split; auto. apply (Permutation_in _ (Permutation_sym Pm)). exact M1. }
    split; auto. eapply (needed_global s ci [n]); [|exists n; split; [left; reflexivity|eapply SpecGlobal.leads_step; [exact R|constructor]]].
    intros x [<-|[]]. exists t. auto.
  Qed.
  Lemma leads_grown n m : SpecGlobal.leads s n m -> SpecGlobal.leads s' n m.
  Proof. induction 1 as [|n m k R _ IH]; [constructor|eapply SpecGlobal.leads_step; [apply refers_grown; exact R|exact IH]]. Qed.
  Lemma leads_back n m : SpecGlobal.leads s' n m -> global_type s n -> SpecGlobal.leads s n m /\ global_type s m.
  Proof.
    induction 1 as [|n m k R _ IH]; intros G; [split; [constructor|auto]|]. destruct (refers_back _ _ G R) as [R' G']. destruct (IH G') as [L K].
    split; auto. eapply SpecGlobal.leads_step; eauto.
  Qed.
  Lemma ends_grown n : wellfounded s n -> global_type s n -> wellfounded s' n.
  Proof.
    unfold wellfounded. induction 1 as [n _ IH]. intros G. constructor. intros m R. destruct (refers_back _ _ G R) as [R' G']. apply IH; auto.
  Qed.
  (** The same definitions *)
  Lemma def_grown_text c n t t' d : get_type s n = Some t -> global_type s n -> type_grown t t' -> def_text c n t' d -> def_text c n t d.
  Proof.
    intros E (t1 & E1 & K) (G & Dc) D. rewrite E in E1. injection E1 as <-.
    inversion D as [vs ws Ed Pm So|fields fs lss Ed Pm So F]; subst; rewrite Ed in G.
    - inversion G as [| | |vs' ? Pe Ex| |]; subst. rewrite <- Dc by eauto. eapply dt_enum; eauto. rewrite Pe. exact Pm.
    - inversion G as [| | | | |? ? ? Pe Ex]; subst. eapply dt_input; [eauto|rewrite Pe; exact Pm|exact So|exact F].
  Qed.
  Lemma file_grown c (u u' : string -> Prop) l l' ds ds' :
    (forall n, u n <-> u' n) -> (forall n, u n -> global_type s n) ->
    NoDup (List.map fst l) -> sorted_by fst l -> (forall n t, In (n, t) l <-> (exists r, u r /\ SpecGlobal.leads s r n) /\ get_type s n = Some t) ->
    NoDup (List.map fst l') -> sorted_by fst l' -> (forall n t, In (n, t) l' <-> (exists r, u' r /\ SpecGlobal.leads s' r n) /\ get_type s' n = Some t) ->
    Forall2 (fun x d => def_text c (fst x) (snd x) d) l ds -> Forall2 (fun x d => def_text c (fst x) (snd x) d) l' ds' -> ds = ds'.
  Proof.
    intros U Ug N So K N' So' K' F F'.
    assert (Ne : List.map fst l = List.map fst l').
    { assert (St : forall m : list (string * stype), sorted_by fst m -> StronglySorted (fun a b => str_leb a b = true) (List.map fst m)).
      { induction 1 as [|x m S IH Fa]; cbn; constructor; auto. rewrite Forall_map. exact Fa. }
      apply (sorted_perm_eq (fun x => x)); [apply St; auto|apply St; auto|rewrite map_id; auto|]. apply NoDup_Permutation; auto.
      intros x. rewrite !in_map_iff. split.
      - intros ([n t] & <- & I). apply K in I. destruct I as [(r & Hu & L) E]. destruct (gr _ _ E) as (t' & E' & _).
        exists (n, t'). split; auto. apply K'. split; auto. exists r. split; [apply U; auto|apply leads_grown; auto].
      - intros ([n t] & <- & I). apply K' in I. destruct I as [(r & Hu & L) E]. apply U in Hu. destruct (leads_back _ _ L (Ug _ Hu)) as [L' (t0 & E0 & _)].
        exists (n, t0). split; auto. apply K. split; eauto. }
    assert (Kl : forall n t, In (n, t) l -> get_type s n = Some t /\ global_type s n).
    { intros n t I. apply K in I. destruct I as [(r & Hu & L) E]. split; auto. exact (proj2 (leads_back _ _ (leads_grown _ _ L) (Ug _ Hu))). }
    assert (Kl' : forall n t, In (n, t) l' -> get_type s' n = Some t) by (intros n t I; apply K' in I; apply I).
    clear K K' So So' N N' U Ug. revert l' ds' Ne F' Kl'.
    induction F as [|[n t] d l ds D F IH]; intros l' ds' Ne F' Kl'.
    - destruct l'; [|discriminate]. inversion F'. auto.
    - destruct l' as [|[n' t'] l']; [discriminate|]. cbn in Ne. injection Ne as <- Ne. inversion F' as [|? d' ? ds2 D' F2]; subst. cbn [fst snd] in *.
      destruct (Kl n t (or_introl eq_refl)) as [E G]. pose proof (Kl' n t' (or_introl eq_refl)) as E'. destruct (gr _ _ E) as (t2 & E2 & Tg). rewrite E' in E2. injection E2 as <-.
      f_equal.
      + eapply def_text_unique; [|exact D|eapply def_grown_text; eauto]. intros fields Ef. exact (proj1 (proj2 (ci n t n fields E Ef))).
      + eapply IH; eauto. intros m w I. apply Kl. right. auto. intros m w I. apply Kl'. right. auto.
  Qed.
End Inputs.

(** ** Projects *)
Section Project.
  Variables s s' : schema.
  Hypothesis gr : grown s s'.
  Hypothesis co : consistent s.
  Hypothesis co' : consistent s'.
  Hypothesis ci : inputs_consistent s.

  Lemma good_var_grown v : good_var s v -> good_var s' v.
  Proof.
    intros [L [B|N]]; split; auto; [left; auto|right]. destruct (get_type s (gbase (vgtype v))) as [t|] eqn:E; [|congruence].
    destruct (gr _ _ E) as (t' & -> & _). discriminate.
  Qed.
  Lemma valid_at_grown e f c path contents d P l frags : valid_at e f c s path contents d P l frags -> valid_at e f c s' path contents d P l frags.
  Proof.
    intros [Rd Pa Ac Qu Fo Fr Br Ro Sb Cp (T & Po) Se Va In0]. constructor; auto.
    - eapply composite_grown; eauto.
    - exists T. eapply possible_grown; eauto.
    - apply (proj2 (valid_grown s s' frags gr co' co)). auto.
    - intros v I. apply good_var_grown. auto.
    - intros x (v & Iv & Ex & Nb & t' & E' & Ns).
      assert (V : variable_type s d x).
      { exists v. split; auto. split; auto. split; auto. destruct (Va v Iv) as [_ [B|N]]; [congruence|]. rewrite <- Ex in N.
        destruct (get_type s x) as [t|] eqn:E; [|congruence]. exists t. split; auto. intros m D. destruct (gr _ _ E) as (t2 & E2 & G & _).
        rewrite E' in E2. injection E2 as <-. rewrite D in G. inversion G; subst. eapply Ns; eauto. }
      destruct (In0 x V) as [G W]. split; [eapply global_grown; eauto|eapply ends_grown; eauto].
  Qed.
  Lemma valid_project_grown e ls f c root : valid_project e ls f c s root -> valid_project e ls f c s' root.
  Proof.
    intros [D S W]. constructor; auto. intros path Sp. destruct (S path Sp) as (contents & d & P & l & frags & V). exists contents, d, P, l, frags. apply valid_at_grown. auto.
  Qed.
End Project.

(** ** Introspection results *)
Lemma kept_fields fs fs' m m' : declared_same fs fs' -> get_fields_for_complex fs true = Ok m -> get_fields_for_complex fs' true = Ok m' -> fields_kept m m'.
Proof.
  unfold get_fields_for_complex. intros [Ds Nt] H H'. rewrite insert_fields_store in H, H'.
  destruct (store_ok jf_name field_of_json bad_field field_err _ _ _ H) as (_ & A & B). destruct (store_ok jf_name field_of_json bad_field field_err _ _ _ H') as (_ & A' & B').
  intros n f G. destruct (named_dec jf_name n fs) as [N|(j & L)].
  - rewrite (B n N) in G. assert (X : (if String.eqb n "__typename" then Some typename_field else None) = Some f) by exact G.
    destruct (String.eqb_spec n "__typename") as [->|Nn]; [|discriminate]. rewrite (B' _ (Nt N)). exact G.
  - destruct (A n j L) as (b & E & C). rewrite G in E. injection E as <-. destruct (A' n j (Ds _ _ L)) as (b' & E' & C'). rewrite C in C'. injection C' as <-. exact E'.
Qed.
Lemma alike_fields fs fs' m m' : declared_alike fs fs' -> get_fields_for_complex fs false = Ok m -> get_fields_for_complex fs' false = Ok m' -> Permutation m m'.
Proof.
  unfold get_fields_for_complex. intros Da H H'. rewrite insert_fields_store in H, H'.
  assert (N : NoDup (akeys m)) by (eapply InputFacts.store_NoDup; [|exact H]; constructor).
  assert (N' : NoDup (akeys m')) by (eapply InputFacts.store_NoDup; [|exact H']; constructor).
  assert (X : forall a b m1 m2, (forall n f, last_named jf_name n a f -> last_named jf_name n b f) -> store jf_name field_of_json a [] = Ok m1 -> store jf_name field_of_json b [] = Ok m2 ->
    forall n f, aget n m1 = Some f -> aget n m2 = Some f).
  { clear. intros a b m1 m2 Da H H' n f G. destruct (store_ok jf_name field_of_json bad_field field_err _ _ _ H) as (_ & A & B).
    destruct (store_ok jf_name field_of_json bad_field field_err _ _ _ H') as (_ & A' & _).
    destruct (named_dec jf_name n a) as [N|(j & L)]; [rewrite (B n N) in G; discriminate G|].
    destruct (A n j L) as (y & E & C). rewrite G in E. injection E as <-. destruct (A' n j (Da _ _ L)) as (y' & E' & C'). rewrite C in C'. injection C' as <-. exact E'. }
  apply NoDup_Permutation; [eapply NoDup_map_inv; exact N|eapply NoDup_map_inv; exact N'|]. intros [n f]. split; intros I; apply aget_In.
  - apply (X fs fs' m m' (fun a b => proj1 (Da a b)) H H'). apply In_aget; auto.
  - apply (X fs' fs m' m (fun a b => proj2 (Da a b)) H' H). apply In_aget; auto.
Qed.
Lemma added_type j j' t t' : def_added j j' -> jt_name j' = jt_name j -> type_of_json j = Ok t -> type_of_json j' = Ok t' -> type_grown t t'.
Proof.
  intros [Ek Fi Po Inp En] Nm H H'. unfold type_of_json in H, H'. rewrite Ek, Nm in H'. unfold type_grown.
  destruct (String.eqb_spec (jt_kind j) "OBJECT") as [K|_].
  { specialize (Fi (or_introl K)). destruct (jt_fields j) as [fs|]; [|discriminate]. destruct (jt_fields j') as [fs'|]; [|discriminate].
    destruct (get_fields_for_complex fs true) as [m|] eqn:E; [|discriminate]. destruct (get_fields_for_complex fs' true) as [m'|] eqn:E'; [|discriminate].
    injection H as <-. injection H' as <-. cbn. split; [constructor; eapply kept_fields; eauto|]. intros (vs & X). discriminate. }
  destruct (String.eqb_spec (jt_kind j) "ENUM") as [K|_].
  { destruct (En K) as [E1 E2]. rewrite E2 in H'. destruct (jt_enum_values j) as [vs|]; [|discriminate]. destruct (jt_enum_values j') as [vs'|]; [|discriminate]. injection H as <-. injection H' as <-. cbn. split; [constructor; exact E1|auto]. }
  destruct (String.eqb_spec (jt_kind j) "SCALAR") as [K|_].
  { injection H as <-. injection H' as <-. cbn. split; [constructor|]. intros (vs & X). discriminate. }
  destruct (String.eqb_spec (jt_kind j) "INTERFACE") as [K|_].
  { specialize (Fi (or_intror K)). specialize (Po (or_introl K)). destruct (jt_fields j) as [fs|]; [|discriminate]. destruct (jt_fields j') as [fs'|]; [|discriminate].
    destruct (jt_possible_types j) as [ps|]; [|discriminate]. destruct (jt_possible_types j') as [ps'|]; [|discriminate].
    destruct (get_fields_for_complex fs true) as [m|] eqn:E; [|discriminate]. destruct (get_fields_for_complex fs' true) as [m'|] eqn:E'; [|discriminate].
    injection H as <-. injection H' as <-. cbn. split; [constructor; auto; eapply kept_fields; eauto|]. intros (vs & X). discriminate. }
  destruct (String.eqb_spec (jt_kind j) "INPUT_OBJECT") as [K|_].
  { specialize (Inp K). destruct (jt_input_fields j) as [fs|]; [|discriminate]. destruct (jt_input_fields j') as [fs'|]; [|discriminate].
    destruct (get_fields_for_complex fs false) as [m|] eqn:E; [|discriminate]. destruct (get_fields_for_complex fs' false) as [m'|] eqn:E'; [|discriminate].
    injection H as <-. injection H' as <-. cbn. split; [constructor; eapply alike_fields; eauto|]. intros (vs & X). discriminate. }
  destruct (String.eqb_spec (jt_kind j) "UNION") as [K|_]; [|discriminate].
  specialize (Po (or_intror K)). destruct (jt_possible_types j) as [ps|]; [|discriminate]. destruct (jt_possible_types j') as [ps'|]; [|discriminate].
  injection H as <-. injection H' as <-. cbn. split; [constructor; auto; intros n f X; exact X|]. intros (vs & X). discriminate.
Qed.
Lemma added_grown js js' s s' : added js js' -> load_schema js = Ok s -> load_schema js' = Ok s' -> grown s s'.
Proof.
  intros A L L' n t G. unfold load_schema, get_type in *. rewrite load_types_store in L, L'.
  destruct (store_ok jt_name type_of_json bad_type type_err _ _ _ L) as (_ & La & No). destruct (store_ok jt_name type_of_json bad_type type_err _ _ _ L') as (_ & La' & _).
  destruct (named_dec jt_name n js) as [N|(j & Lj)]; [rewrite (No n N) in G; discriminate|].
  destruct (La n j Lj) as (t0 & E & C). rewrite G in E. injection E as <-. destruct (A n j Lj) as (j' & Lj' & D). destruct (La' n j' Lj') as (t' & E' & C').
  exists t'. split; auto. eapply added_type; eauto. destruct Lj as (? & ? & _ & E1 & _), Lj' as (? & ? & _ & E2 & _). congruence.
Qed.
