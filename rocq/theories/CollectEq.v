(** Field collection under different iteration orders ends in equal maps. *)
From Verif Require Export TravEq.

Definition crel (a b : ctrav) : Prop := ct_name a = ct_name b /\ ct_lookup a = ct_lookup b /\ orel (ct_objs a) (ct_objs b).
Lemma crel_teq a b : crel a b -> teq (ftrav_of_ctrav a) (ftrav_of_ctrav b).
Proof. intros (E & L & R). unfold ftrav_of_ctrav. apply teq_orel. auto. Qed.
Lemma crel_sym a b : crel a b -> crel b a.
Proof. intros (E & L & R). split; [|split]; auto. apply orel_sym. auto. Qed.

(** Contexts that differ at most in their order and in how the fragments are listed *)
Record csame (cx cx' : ctx) : Prop := {
  cs_schema : cx_schema cx = cx_schema cx';
  cs_dep : cx_deprecations cx = cx_deprecations cx';
  cs_frags : forall n, aget n (cx_frags cx) = aget n (cx_frags cx');
  cs_order : order_ok (cx_order cx);
  cs_order' : order_ok (cx_order cx') }.
Lemma csame_sym cx cx' : csame cx cx' -> csame cx' cx.
Proof. intros [A B C D E]. constructor; auto. Qed.

Lemma empty_orel (a : amap string ufields) : NoDup (akeys a) -> (forall T u, aget T a = Some u -> u = []) -> orel a a.
Proof.
  intros N Z. split; [auto|]. split; [auto|]. intros T. destruct (aget T a) as [u|] eqn:E; auto.
  rewrite (Z T u E). split; [constructor|]. split; [constructor|]. intros k. cbn. auto.
Qed.
Lemma fresh_objs s c p par : new_ctrav s c p = Ok par ->
  NoDup (akeys (ct_objs par)) /\ forall T u, aget T (ct_objs par) = Some u -> u = [].
Proof.
  unfold new_ctrav. destruct (get_type s c) as [t|] eqn:E; [|discriminate].
  destruct (get_fields_lookup (st_def t)) as [lk|]; [|discriminate].
  destruct (initial_objs c (st_def t)) as [objs|] eqn:Ei; [|discriminate]. intros H. injection H as <-. cbn [ct_objs].
  assert (X : forall ps (m : amap string ufields), NoDup (akeys m) -> (forall T u, aget T m = Some u -> u = []) ->
     NoDup (akeys (fold_left (fun m t => aset t [] m) ps m)) /\
     forall T u, aget T (fold_left (fun m t => aset t [] m) ps m) = Some u -> u = []).
  { induction ps as [|x ps IH]; intros m N Z; cbn [fold_left]; auto. apply IH; [apply NoDup_aset; auto|].
    intros T u. rewrite aget_aset. destruct (eqb T x); [intros Q; injection Q as <-; auto|apply Z]. }
  unfold initial_objs in Ei. destruct (st_def t); inversion Ei; subst objs.
  - split; [repeat constructor; auto|]. intros T u. cbn. destruct (eqb T c); [intros Q; injection Q as <-; auto|discriminate].
  - apply X; [constructor|discriminate].
  - apply X; [constructor|discriminate].
Qed.
Lemma fresh_crel s c p par : new_ctrav s c p = Ok par -> crel par par.
Proof. intros H. destruct (fresh_objs _ _ _ _ H). split; [|split]; auto. apply empty_orel; auto. Qed.

Section Insert.
  Variables o o' : order.
  Hypothesis O : order_ok o.
  Hypothesis O' : order_ok o'.

  Lemma uf_good (w w' r : ufields) k f tr tr' q q' : urel w w' -> teq tr tr' ->
    uf_insert_with (extend_ft o tr q) k f tr w = (r, None) ->
    exists r', uf_insert_with (extend_ft o' tr' q') k f tr' w' = (r', None) /\ urel r r'.
  Proof.
    intros (N & N' & Rw) Rt. unfold uf_insert_with. pose proof (Rw k) as Rk.
    assert (X : forall x y, erel x y -> urel (aset k x w) (aset k y w')).
    { intros x y Re. split; [apply NoDup_aset; auto|]. split; [apply NoDup_aset; auto|]. intros k'. rewrite !aget_aset.
      destruct (eqb k' k); [auto|apply Rw]. }
    destruct (aget k w) as [[f0 t0]|]; destruct (aget k w') as [[f0' t0']|]; try contradiction.
    - destruct Rk as [E0 T0]. cbn [fst snd] in E0, T0. subst f0'.
      destruct (extend_ft o tr q t0) as [t1 e] eqn:Ex. intros H. injection H as <- ->.
      destruct (extend_teq o o' O O' tr tr' Rt t0 t0' q q' t1 T0 Ex) as (t1' & Ex' & T1). rewrite Ex'.
      eexists. split; [reflexivity|]. apply X. split; auto.
    - intros H. injection H as <-. eexists. split; [reflexivity|]. apply X. split; auto.
  Qed.

  Lemma insert_all_form oo (Oo : order_ok oo) q k n f tr par : NoDup (akeys (ct_objs par)) ->
    exists L, Permutation (index_list (akeys (ct_objs par))) L /\
      let hh := fun x : nat * string => obj_h (snd x, uf_insert_with (extend_ft oo tr (fst x :: 1 :: q)) (k, n) f tr) in
      NoDup (akeys (List.map hh L)) /\
      insert_all oo q k n f tr par =
      (let (objs', e) := fold_err upd (List.map hh L) (ct_objs par) in
       ({| ct_name := ct_name par; ct_lookup := ct_lookup par; ct_objs := objs' |}, e)).
  Proof.
    intros N. exists (oo (0 :: q) _ (index_list (akeys (ct_objs par)))). split; [apply Oo|]. cbn zeta. split.
    - unfold akeys at 1. rewrite map_map. cbn [obj_h fst]. eapply Permutation_NoDup; [|exact N].
      rewrite <- (index_list_map_snd (akeys (ct_objs par))) at 1. apply Permutation_map. apply Oo.
    - unfold insert_all.
      rewrite (fold_err_ext _ (fun x => upd (obj_h (snd x, uf_insert_with (extend_ft oo tr (fst x :: 1 :: q)) (k, n) f tr))))
        by (intros; apply co_update_upd).
      rewrite <- (fold_err_map upd (fun x => obj_h (snd x, uf_insert_with (extend_ft oo tr (fst x :: 1 :: q)) (k, n) f tr))).
      reflexivity.
  Qed.

  Lemma insert_all_good q q' k n f tr tr' par par' r : crel par par' -> teq tr tr' ->
    insert_all o q k n f tr par = (r, None) ->
    exists r', insert_all o' q' k n f tr' par' = (r', None) /\ crel r r'.
  Proof.
    intros (En & El & Ro) Rt. pose proof Ro as (N & N' & Rk).
    destruct (insert_all_form o O q k n f tr par N) as (L & PL & NL & EL).
    destruct (insert_all_form o' O' q' k n f tr' par' N') as (L' & PL' & NL' & EL').
    cbn zeta in *. rewrite EL, EL'.
    match goal with |- context [fold_err upd ?l (ct_objs par)] => set (l1 := l) in * end.
    match goal with |- context [fold_err upd ?l (ct_objs par')] => set (l2 := l) in * end.
    destruct (fold_err upd l1 (ct_objs par)) as [r1 e] eqn:F. intros H. injection H as <- ->.
    assert (Kk : forall oo q t c L T, Permutation (index_list (akeys c)) L ->
      (In T (akeys (List.map (fun x : nat * string => obj_h (snd x, uf_insert_with (extend_ft oo t (fst x :: 1 :: q)) (k, n) f t)) L)) <-> In T (@akeys string ufields c))).
    { intros oo q0 t c L0 T P0. unfold akeys at 1. rewrite map_map. cbn [obj_h fst].
      assert (Pm : Permutation (akeys c) (List.map snd L0)). { rewrite <- (index_list_map_snd (akeys c)). apply Permutation_map. auto. }
      split; intros I; (eapply Permutation_in; [|exact I]); [apply Permutation_sym|]; auto. }
    destruct (fold_rel urel l1 l2 (ct_objs par) (ct_objs par') r1) as (r2 & F2 & R2); auto.
    - apply keeps_obj.
    - apply keeps_obj.
    - intros T. eapply iff_trans; [exact (Kk o q tr _ L T PL)|]. eapply iff_trans; [|exact (iff_sym (Kk o' q' tr' _ L' T PL'))].
      specialize (Rk T). split; intros I; apply akeys_In_aget in I; destruct I as [v I]; rewrite I in Rk.
      + destruct (aget T (ct_objs par')) eqn:E; [eapply aget_Some_key; eauto|destruct Rk].
      + destruct (aget T (ct_objs par)) eqn:E; [eapply aget_Some_key; eauto|destruct Rk].
    - intros T h h' ov ov' I I' _ _ Rv Hn. apply in_map_iff in I, I'.
      destruct I as ((j & T1) & E1 & _). destruct I' as ((j' & T2) & E2 & _). inversion E1; subst. inversion E2; subst. cbn [fst snd] in *.
      destruct ov as [w|]; destruct ov' as [w'|]; try contradiction; [|cbn; auto].
      destruct (uf_insert_with (extend_ft o tr (j :: 1 :: q)) (k, n) f tr w) as [w1 e] eqn:Ex. cbn [snd] in Hn. subst e.
      destruct (uf_good w w' w1 (k, n) f tr tr' (j :: 1 :: q) (j' :: 1 :: q') Rv Rt Ex) as (w1' & Ex' & R1).
      rewrite Ex'. cbn. auto.
    - rewrite F2. eexists. split; [reflexivity|]. split; [|split]; auto.
  Qed.

  Lemma extend_ct_good q q' par par' sub sub' r : crel par par' -> crel sub sub' ->
    extend_ct o q par sub = (r, None) -> exists r', extend_ct o' q' par' sub' = (r', None) /\ crel r r'.
  Proof.
    intros R Rs. unfold extend_ct. apply crel_teq in R, Rs.
    destruct (extend_ft o (ftrav_of_ctrav sub) q (ftrav_of_ctrav par)) as [t e] eqn:Ex. intros H.
    destruct t as [tn|tn lk ob].
    { exfalso. unfold ftrav_of_ctrav in Ex. rewrite extend_ft_cplx in Ex.
      match type of Ex with context [fold_err ?g ?l ?x] => destruct (fold_err g l x) end. discriminate. }
    injection H as <- ->.
    destruct (extend_teq o o' O O' _ _ Rs _ _ q q' _ R Ex) as (t' & Ex' & Rt). rewrite Ex'.
    inversion Rt; subst. eexists. split; [reflexivity|]. split; [auto|]. split; [auto|].
    apply teq_orel in Rt. apply Rt.
  Qed.
End Insert.

(** *** The collector *)
Definition good1 (rec rec' : collector) : Prop := forall pth pth' sels par par' js q ws r',
  crel par par' -> rec pth sels par js = Some (q, ws, []) -> rec' pth' sels par' js = Some r' ->
  snd r' = [] /\ crel q (fst (fst r')).

Lemma clone_good cx cx' pth pth' par par' c p js : csame cx cx' -> crel par par' ->
  match clone_for_type_spread cx pth par c p js, clone_for_type_spread cx' pth' par' c p js with
  | Err e, Err e' => e = e'
  | Ok (x, _), Ok (x', _) => crel x x'
  | _, _ => False
  end.
Proof.
  intros S (En & El & Ro). unfold clone_for_type_spread. rewrite <- (cs_schema _ _ S).
  destruct (new_ctrav (cx_schema cx) c p) as [base|e] eqn:E; auto.
  destruct (fresh_objs _ _ _ _ E) as [N Z].
  assert (Ef : filter (fun x : string * ufields => amem (fst x) (ct_objs par)) (ct_objs base) =
               filter (fun x => amem (fst x) (ct_objs par')) (ct_objs base)).
  { apply filter_ext. intros [T u]. cbn [fst]. destruct Ro as (_ & _ & Rk). specialize (Rk T).
    unfold amem. destruct (aget T (ct_objs par)), (aget T (ct_objs par')); auto; contradiction. }
  rewrite <- Ef. split; [auto|]. split; [auto|]. cbn [ct_objs].
  assert (Kf : akeys (filter (fun x : string * ufields => amem (fst x) (ct_objs par)) (ct_objs base)) =
               filter (fun T => amem T (ct_objs par)) (akeys (ct_objs base))) by apply (akeys_filter (fun T => amem T (ct_objs par))).
  apply empty_orel.
  - rewrite Kf. apply NoDup_filter. auto.
  - intros T u G. apply (aget_filter (fun T => amem T (ct_objs par))) in G. eauto.
Qed.

Section Steps.
  Variables cx cx' : ctx.
  Hypothesis S : csame cx cx'.
  Variables rec rec' : collector.
  Hypothesis G : good1 rec rec'.
  Hypothesis G' : good1 rec' rec.

  Lemma insert_field_good pth pth' p al n sub par par' js q ws r' : crel par par' ->
    insert_field rec cx pth p al n sub par js = Some (q, ws, []) ->
    insert_field rec' cx' pth' p al n sub par' js = Some r' ->
    snd r' = [] /\ crel q (fst (fst r')).
  Proof.
    intros R. pose proof R as (En & El & Ro). unfold insert_field. rewrite <- El, <- (cs_schema _ _ S).
    destruct (aget n (ct_lookup par)) as [f|]; [|discriminate].
    destruct sub as [|x sub]; destruct (fdef_is_complex (ft_def (sf_type f))); try discriminate.
    - destruct (insert_all (cx_order cx) _ _ _ f _ par) as [t [e|]] eqn:E; [discriminate|]. intros H. injection H as <- <-.
      destruct (insert_all_good _ _ (cs_order _ _ S) (cs_order' _ _ S) _ (1 :: pth') _ _ _ _ _ _ _ _ R (teq_term _) E) as (t' & E' & R').
      rewrite E'. intros H. injection H as <-. cbn. auto.
    - destruct (new_ctrav (cx_schema cx) (ft_name (sf_type f)) p) as [sp|e] eqn:En'; [|discriminate].
      destruct (rec (2 :: pth) (x :: sub) sp js) as [[[sp1 ws1] [|e1 es1]]|] eqn:Er; try discriminate.
      destruct (insert_all (cx_order cx) _ _ _ f _ par) as [t [e|]] eqn:E; [discriminate|]. intros H. injection H as <- <-.
      destruct (rec' (2 :: pth') (x :: sub) sp js) as [[[sp1' ws1'] es1']|] eqn:Er'; [|discriminate].
      destruct (G _ _ _ _ _ _ _ _ _ (fresh_crel _ _ _ _ En') Er Er') as [Z R1]. cbn [fst snd] in Z, R1. subst es1'.
      destruct (insert_all_good _ _ (cs_order _ _ S) (cs_order' _ _ S) _ (1 :: pth') _ _ _ _ _ _ _ _ R (crel_teq _ _ R1) E) as (t' & E' & R').
      rewrite E'. intros H. injection H as <-. cbn. auto.
  Qed.

  Lemma spread_good1 pth pth' c p sub par par' njs q ws x' : crel par par' ->
    spread_into rec cx pth c p sub par njs = Some (inl (q, ws, [])) ->
    spread_into rec' cx' pth' c p sub par' njs = Some x' ->
    exists q' ws', x' = inl (q', ws', []) /\ crel q q'.
  Proof.
    intros R. unfold spread_into. pose proof (clone_good cx cx' (0 :: pth) (0 :: pth') par par' c p njs S R) as C.
    destruct (clone_for_type_spread cx (0 :: pth) par c p njs) as [[sp w]|e]; destruct (clone_for_type_spread cx' (0 :: pth') par' c p njs) as [[sp' w']|e']; try contradiction.
    2:{ intros H H'. injection H as <- <- El. injection H' as <-. destruct (is_local njs); [discriminate|]. eauto. }
    destruct (rec (1 :: pth) sub sp njs) as [[[sp1 ws1] es1]|] eqn:Er; [|discriminate].
    destruct (rec' (1 :: pth') sub sp' njs) as [[[sp1' ws1'] es1']|] eqn:Er'; [|discriminate].
    destruct es1 as [|e1 es1].
    - destruct (G _ _ _ _ _ _ _ _ _ C Er Er') as [Z R1]. cbn [fst snd] in Z, R1. subst es1'.
      destruct (extend_ct (cx_order cx) (2 :: pth) par sp1) as [t [e|]] eqn:E; [discriminate|]. intros H. injection H as <- <-.
      destruct (extend_ct_good _ _ (cs_order _ _ S) (cs_order' _ _ S) _ (2 :: pth') _ _ _ _ _ R R1 E) as (t' & E' & R').
      rewrite E'. intros H. injection H as <-. eauto.
    - intros H. injection H as <- <- Ei. destruct es1' as [|e1' es1'].
      + destruct (G' _ _ _ _ _ _ _ _ _ (crel_sym _ _ C) Er' Er) as [Z _]. discriminate.
      + intros H. injection H as <-. destruct (is_local njs); [discriminate|]. eauto.
  Qed.

  Lemma sel_step_good pth pth' i i' x par par' js q ws x' : crel par par' ->
    sel_step rec cx pth i x par js = Some (inl (q, ws, [])) -> sel_step rec' cx' pth' i' x par' js = Some x' ->
    exists q' ws', x' = inl (q', ws', []) /\ crel q q'.
  Proof.
    intros R. destruct x as [p al n a d sub|p n d|p c d sub]; cbn [sel_step].
    - destruct (insert_field rec cx _ p al n sub par js) as [r|] eqn:E; [|discriminate]. cbn [option_map]. intros H. injection H as ->.
      destruct (insert_field rec' cx' _ p al n sub par' js) as [[[q' ws'] es']|] eqn:E'; [|discriminate]. cbn [option_map]. intros H. injection H as <-.
      destruct (insert_field_good _ _ _ _ _ _ _ _ _ _ _ _ R E E') as [Z Rq]. cbn [fst snd] in Z, Rq. subst es'. eauto.
    - rewrite <- (cs_frags _ _ S). destruct (aget n (cx_frags cx)) as [fd|]; [|discriminate]. intros H H'. eapply spread_good1; eauto.
    - destruct c as [c|]; [|discriminate]. intros H H'. eapply spread_good1; eauto.
  Qed.
End Steps.

Lemma sel_step_inr rec cx pth i x par js q ws es : sel_step rec cx pth i x par js = Some (inr (q, ws, es)) -> es <> [].
Proof.
  assert (X : forall c p sub njs, spread_into rec cx (i :: pth) c p sub par njs = Some (inr (q, ws, es)) -> es <> []).
  { intros c p sub njs. unfold spread_into. destruct (clone_for_type_spread _ _ _ _ _ _) as [[sp w]|e]; [|discriminate].
    destruct (rec _ sub sp njs) as [[[sp1 ws1] [|e1 es1]]|]; try discriminate.
    destruct (extend_ct _ _ _ _) as [t [e|]]; try discriminate. intros H. injection H as <- <- <-. discriminate. }
  destruct x as [p al n a d sub|p n d|p c d sub]; cbn [sel_step].
  - destruct (insert_field _ _ _ _ _ _ _ _ _); discriminate.
  - destruct (aget n (cx_frags cx)); [apply X|discriminate].
  - destruct c; [apply X|discriminate].
Qed.
Lemma loop_errs rec cx sels : forall pth i par js ws es q ws' es', collect_loop rec cx pth i sels par js ws es = Some (q, ws', es') ->
  es <> [] -> es' <> [].
Proof.
  induction sels as [|x sels IH]; intros pth i par js ws es q ws' es' H N.
  - cbn in H. injection H as <- <- <-. auto.
  - rewrite collect_loop_cons in H. destruct (sel_step rec cx pth i x par js) as [[[[q1 w1] e1]|[[q1 w1] e1]]|] eqn:E; [| |discriminate].
    + eapply IH; eauto. destruct es; [congruence|discriminate].
    + injection H as <- <- <-. eapply sel_step_inr; eauto.
Qed.

Lemma loop_good1 cx cx' rec rec' : csame cx cx' -> good1 rec rec' -> good1 rec' rec ->
  forall sels pth pth' i i' par par' js ws0 ws0' q ws r', crel par par' ->
  collect_loop rec cx pth i sels par js ws0 [] = Some (q, ws, []) ->
  collect_loop rec' cx' pth' i' sels par' js ws0' [] = Some r' -> snd r' = [] /\ crel q (fst (fst r')).
Proof.
  intros S G G'. induction sels as [|x sels IH]; intros pth pth' i i' par par' js ws0 ws0' q ws r' R H H'.
  - cbn in H, H'. injection H as <- <-. injection H' as <-. cbn. auto.
  - rewrite collect_loop_cons in H, H'.
    destruct (sel_step rec cx pth i x par js) as [[[[q1 w1] e1]|[[q1 w1] e1]]|] eqn:E; [| |discriminate].
    + destruct e1 as [|e e1]; [|exfalso; eapply (loop_errs _ _ _ _ _ _ _ _ _ _ _ _ H); [discriminate|reflexivity]].
      destruct (sel_step rec' cx' pth' i' x par' js) as [x'|] eqn:E'; [|discriminate].
      destruct (sel_step_good cx cx' S rec rec' G G' _ _ _ _ _ _ _ _ _ _ _ R E E') as (q' & ws' & -> & Rq).
      cbn [app] in H, H'. eapply IH; eauto.
    + injection H as <- <- ->. exfalso. eapply sel_step_inr; eauto.
Qed.

Theorem collect_good : forall n n' cx cx', csame cx cx' -> good1 (collect n cx) (collect n' cx') /\ good1 (collect n' cx') (collect n cx).
Proof.
  induction n as [|n IH]; intros n' cx cx' S.
  - split; intros pth pth' sels par par' js q ws r' R H H'; discriminate.
  - destruct n' as [|n']; [split; intros pth pth' sels par par' js q ws r' R H H'; discriminate|].
    destruct (IH n' cx cx' S) as [A B]. split; intros pth pth' sels par par' js q ws r' R H H'; rewrite collect_S in H, H'.
    + eapply (loop_good1 cx cx' _ _ S A B); eauto.
    + eapply (loop_good1 cx' cx _ _ (csame_sym _ _ S) B A); eauto.
Qed.
Print Assumptions collect_good.

(** *** The intermediate representation *)
(** Equal up to the order of fields with the same name: the field lists are sorted by name and can
    be rearranged so that corresponding fields agree in everything *)
Inductive ieq : irtype -> irtype -> Prop :=
| ie_typename : ieq ITypeName ITypeName
| ie_scalar sc : ieq (IScalar sc) (IScalar sc)
| ie_enum n : ieq (IEnum n) (IEnum n)
| ie_complex cs cs' : ieq_cs cs cs' -> ieq (IComplex cs) (IComplex cs')
with ieq_cs : list ircomplex -> list ircomplex -> Prop :=
| ie_nil : ieq_cs [] []
| ie_cons T fs fs' cs cs' : ieq_fs fs fs' -> ieq_cs cs cs' -> ieq_cs (IRComplex T fs :: cs) (IRComplex T fs' :: cs')
with ieq_fs : list irfield -> list irfield -> Prop :=
| ie_fields fs fs' es es' : sorted_by irf_prop fs -> sorted_by irf_prop fs' -> Permutation fs es -> Permutation fs' es' ->
    ieq_each es es' -> ieq_fs fs fs'
with ieq_each : list irfield -> list irfield -> Prop :=
| ie_each_nil : ieq_each [] []
| ie_each_cons k doc dep m ms t t' es es' : ieq t t' -> ieq_each es es' ->
    ieq_each (IRField k doc dep m ms t :: es) (IRField k doc dep m ms t' :: es').
Scheme ieq_ind2 := Minimality for ieq Sort Prop
  with ieq_cs_ind2 := Minimality for ieq_cs Sort Prop
  with ieq_fs_ind2 := Minimality for ieq_fs Sort Prop
  with ieq_each_ind2 := Minimality for ieq_each Sort Prop.
Combined Scheme ieq_mutind from ieq_ind2, ieq_cs_ind2, ieq_fs_ind2, ieq_each_ind2.

Lemma Forall2_perm {A B} (R : A -> B -> Prop) l l' : Permutation l l' -> forall m, Forall2 R l m ->
  exists m', Permutation m m' /\ Forall2 R l' m'.
Proof.
  induction 1 as [|x l l' Pm IH|x y l|l l' l'' Pm IH Pm' IH']; intros m F.
  - inversion F; subst. exists []. auto.
  - inversion F as [|? b ? m1 Rb F1]; subst. destruct (IH _ F1) as (m' & P' & F'). exists (b :: m'). auto.
  - inversion F as [|? b ? m1 Rb F1]; subst. inversion F1 as [|? b' ? m2 Rb' F2]; subst. exists (b' :: b :: m2). split; [apply perm_swap|auto].
  - destruct (IH _ F) as (m1 & P1 & F1). destruct (IH' _ F1) as (m2 & P2 & F2). exists m2. split; auto. eapply perm_trans; eauto.
Qed.
Lemma mrel_pairs {K V} {HKe : EqB K} {HK : EqBOk K} (R : V -> V -> Prop) (a b : amap K V) : mrel R a b ->
  exists b', Permutation b b' /\ Forall2 (fun x y => fst x = fst y /\ R (snd x) (snd y)) a b'.
Proof.
  revert b. induction a as [|[k x] a IH]; intros b (Na & Nb & H).
  - exists []. split; [|constructor]. destruct b as [|[k y] b]; auto. specialize (H k). cbn in H. rewrite eqb_rfl in H. contradiction.
  - pose proof (H k) as Hk. cbn [aget] in Hk. rewrite eqb_rfl in Hk. destruct (aget k b) as [y|] eqn:E; [|contradiction].
    apply aget_In in E. apply in_split in E. destruct E as (b1 & b2 & ->).
    assert (Nb' : NoDup (akeys ((k, y) :: b1 ++ b2))).
    { eapply Permutation_NoDup; [|exact Nb]. apply (Permutation_map fst). apply Permutation_sym, Permutation_middle. }
    inversion Na as [|? ? Nk Na']; subst. inversion Nb' as [|? ? Nk' Nb2]; subst.
    destruct (IH (b1 ++ b2)) as (b' & P' & F').
    { split; [auto|]. split; [auto|]. intros k'. specialize (H k').
      assert (Eb : aget k' (b1 ++ (k, y) :: b2) = if eqb k' k then Some y else aget k' (b1 ++ b2)).
      { rewrite (aget_perm _ ((k, y) :: b1 ++ b2) Nb (Permutation_sym (Permutation_middle b1 b2 (k, y)))). reflexivity. }
      rewrite Eb in H. cbn [aget] in H. destruct (eqb k' k) eqn:Ek; auto.
      apply eqb_ok in Ek. subst k'.
      assert (aget k a = None) as -> by (apply aget_None; auto). assert (aget k (b1 ++ b2) = None) as -> by (apply aget_None; auto). auto. }
    exists ((k, y) :: b'). split; [|constructor; auto].
    eapply perm_trans; [apply Permutation_sym, Permutation_middle|]. constructor. auto.
Qed.

Section Conv.
  Variables o o' : order.
  Hypothesis O : order_ok o.
  Hypothesis O' : order_ok o'.

  Definition ir_good1 (t t' : ftrav) : Prop := forall f p p' ty, type_ir o p f t = Ok ty ->
    exists ty', type_ir o' p' f t' = Ok ty' /\ ieq ty ty'.

  Lemma type_ir_simple oo p f t : fdef_is_complex (ft_def (sf_type f)) = false ->
    type_ir oo p f t = match ft_def (sf_type f) with
                       | FDTypeName => Ok ITypeName
                       | FDScalar sc => Ok (IScalar sc)
                       | FDEnum => Ok (IEnum (ft_name (sf_type f)))
                       | _ => Err (EInputObjectOnSelection (sf_name f) (ft_name (sf_type f)))
                       end.
  Proof. intros H. destruct t; cbn [type_ir]; destruct (ft_def (sf_type f)); try discriminate; reflexivity. Qed.

  (** Results of a conversion loop correspond to the entries of the map *)
  Lemma loop_inv {A B} oo (Oo : order_ok oo) p (g : nat * A -> res ir_error B) (u : list A) fs :
    collect_res (oo p _ (List.map g (indexed_from 0 u))) = Ok fs ->
    exists fs1, Permutation fs fs1 /\ Forall2 (fun e fld => exists j, g (j, e) = Ok fld) u fs1.
  Proof.
    intros H. destruct (order_map oo Oo p g (indexed_from 0 u)) as (L & PL & EL). rewrite EL in H. apply collect_res_Ok in H.
    assert (F : Forall2 (fun x y => g x = Ok y) L fs).
    { revert fs H. clear. induction L as [|x L IH]; intros fs H; cbn in H; destruct fs; try discriminate; [constructor|].
      cbn in H. injection H as E1 E2. constructor; auto. }
    destruct (Forall2_perm _ _ _ (Permutation_sym PL) _ F) as (fs1 & P1 & F1). exists fs1. split; auto.
    clear - F1. revert fs1 F1. generalize 0. induction u as [|x u IH]; intros i fs1 F1; [inversion F1; constructor|].
    rewrite indexed_from_cons in F1. inversion F1 as [|? y ? fs2 E F2]; subst. constructor; eauto.
  Qed.
  Lemma loop_make {A B} oo (Oo : order_ok oo) p (g : nat * A -> res ir_error B) (u : list A) (Q : A -> B -> Prop) :
    (forall e, In e u -> forall j, exists y, g (j, e) = Ok y /\ Q e y) ->
    exists fs, collect_res (oo p _ (List.map g (indexed_from 0 u))) = Ok fs /\ exists fs1, Permutation fs fs1 /\ Forall2 Q u fs1.
  Proof.
    intros H. destruct (order_map oo Oo p g (indexed_from 0 u)) as (L & PL & EL). rewrite EL.
    destruct (collect_res_total g L (fun x y => Q (snd x) y)) as (fs & Ef & F).
    { intros [j e] I. apply (Permutation_in _ (Permutation_sym PL)) in I. apply (in_map snd) in I. rewrite indexed_snd in I. apply H. auto. }
    exists fs. split; auto. destruct (Forall2_perm _ _ _ (Permutation_sym PL) _ F) as (fs1 & P1 & F1). exists fs1. split; auto.
    clear - F1. revert fs1 F1. generalize 0. induction u as [|x u IH]; intros i fs1 F1; [inversion F1; constructor|].
    rewrite indexed_from_cons in F1. inversion F1 as [|? y ? fs2 E F2]; subst. constructor; eauto.
  Qed.
  Lemma sort_by_Forall2 {A B} (R : A -> B -> Prop) (key : A -> string) (key' : B -> string) l l' :
    (forall x y, R x y -> key x = key' y) -> Forall2 R l l' -> Forall2 R (sort_by key l) (sort_by key' l').
  Proof.
    intros Hk F. unfold sort_by. induction F as [|x y l l' H F IH]; cbn [fold_right]; [constructor|].
    revert IH. generalize (fold_right (insert_by key) [] l) (fold_right (insert_by key') [] l'). clear F l l'. intros l l' F.
    induction F as [|a b l l' Hab F IH]; cbn [insert_by]; [auto|].
    rewrite <- (Hk _ _ H), <- (Hk _ _ Hab). destruct (str_leb (key x) (key a)); auto.
  Qed.
  Lemma Forall2_comp {A B C D} (Q : A -> B -> Prop) (R : A -> C -> Prop) (R' : B -> D -> Prop) l l' m m' :
    Forall2 Q l l' -> Forall2 R l m -> Forall2 R' l' m' -> Forall2 (fun c d => exists a b, In a l /\ In b l' /\ Q a b /\ R a c /\ R' b d) m m'.
  Proof.
    intros F. revert m m'. induction F as [|a b l l' H F IH]; intros m m' F1 F2; inversion F1; subst; inversion F2; subst; constructor.
    - exists a, b. cbn. auto.
    - eapply Forall2_imp; [|eapply IH; eauto]. intros c d (a' & b' & Ia & Ib & X). exists a', b'. cbn. auto.
  Qed.
  Lemma each_of es es' : Forall2 (fun x y => match x, y with IRField k d p m ms t, IRField k' d' p' m' ms' t' =>
      k = k' /\ d = d' /\ p = p' /\ m = m' /\ ms = ms' /\ ieq t t' end) es es' -> ieq_each es es'.
  Proof.
    induction 1 as [|x y es es' H F IH]; [constructor|]. destruct x, y. destruct H as (-> & -> & -> & -> & -> & H). constructor; auto.
  Qed.
  Lemma cs_of cs cs' : Forall2 (fun x y => irc_name x = irc_name y /\ ieq_fs (irc_fields x) (irc_fields y)) cs cs' -> ieq_cs cs cs'.
  Proof.
    induction 1 as [|x y cs cs' H F IH]; [constructor|]. destruct x, y. cbn in H. destruct H as [-> H]. constructor; auto.
  Qed.

  Lemma fields_good i p i' p' (u u' : ufields) fs : urel u u' ->
    (forall k f t f' t', aget k u = Some (f, t) -> aget k u' = Some (f', t') -> ir_good1 t t') ->
    collect_res (o (i :: p) _ (List.map (conv_ent o i p) (indexed_from 0 u))) = Ok fs ->
    exists fs', collect_res (o' (i' :: p') _ (List.map (conv_ent o' i' p') (indexed_from 0 u'))) = Ok fs' /\
      ieq_fs (sort_by irf_prop fs) (sort_by irf_prop fs').
  Proof.
    intros Ru X H. pose proof Ru as (Nu & Nu' & Rk). destruct (loop_inv o O _ _ _ _ H) as (fs1 & P1 & F1).
    destruct (mrel_pairs erel u u' Ru) as (u1 & Pu & Fu).
    set (Q := fun (e : (string * string) * (sfield * ftrav)) (y : irfield) =>
       exists fld, (exists j e0, In e0 u /\ fst e0 = fst e /\ conv_ent o i p (j, e0) = Ok fld) /\ match fld, y with IRField k d p m ms t, IRField k' d' p' m' ms' t' =>
      k = k' /\ d = d' /\ p = p' /\ m = m' /\ ms = ms' /\ ieq t t' end).
    assert (Step : forall j j' k f t f' t', In (k, (f, t)) u -> In (k, (f', t')) u' -> forall fld, conv_ent o i p (j, (k, (f, t))) = Ok fld ->
      exists y, conv_ent o' i' p' (j', (k, (f', t'))) = Ok y /\ match fld, y with IRField k d p m ms t, IRField k' d' p' m' ms' t' =>
      k = k' /\ d = d' /\ p = p' /\ m = m' /\ ms = ms' /\ ieq t t' end).
    { intros j j' [al tn] f t f' t' I I' fld E. apply In_aget in I; auto. apply In_aget in I'; auto.
      pose proof (Rk (al, tn)) as R0. rewrite I, I' in R0. destruct R0 as [Ef _]. cbn in Ef. subst f'. cbn [conv_ent] in *.
      destruct (type_ir o (j :: i :: p) f t) as [ty|] eqn:Et; [|discriminate]. injection E as <-.
      destruct (X _ _ _ _ _ I I' f (j :: i :: p) (j' :: i' :: p') ty Et) as (ty' & Et' & Ie). rewrite Et'.
      eexists. split; [reflexivity|]. repeat split; auto. }
    assert (Inv : forall k v, In (k, v) u' -> exists v0 fld j, In (k, v0) u /\ conv_ent o i p (j, (k, v0)) = Ok fld /\ In fld fs).
    { intros k v' I'. assert (Ek : aget k u' = Some v') by (apply In_aget; auto). specialize (Rk k). rewrite Ek in Rk.
      destruct (aget k u) as [v|] eqn:E; [|contradiction]. apply aget_In in E.
      destruct (Forall2_in_l _ _ _ _ F1 E) as (fld & If & j & Ec). exists v, fld, j. split; auto. split; auto.
      eapply Permutation_in; [apply Permutation_sym; exact P1|auto]. }
    destruct (loop_make o' O' (i' :: p') (conv_ent o' i' p') u' (fun e' y => exists j', conv_ent o' i' p' (j', e') = Ok y)) as (fs' & E' & fs1' & P1' & F1').
    { intros [k [f' t']] I' j'. destruct (Inv _ _ I') as ([f t] & fld & j & I & Ec & _).
      destruct (Step j j' k f t f' t' I I' fld Ec) as (y & Ey & _). eauto. }
    exists fs'. split; auto.
    destruct (Forall2_perm _ _ _ Pu _ F1') as (fs2' & P2' & F2').
    pose proof (Forall2_comp _ _ _ _ _ _ _ Fu F1 F2') as Z.
    apply (ie_fields _ _ fs1 fs2').
    - apply sort_by_sorted.
    - apply sort_by_sorted.
    - eapply perm_trans; [apply Permutation_sym, sort_by_perm|auto].
    - eapply perm_trans; [apply Permutation_sym, sort_by_perm|]. eapply perm_trans; eauto.
    - apply each_of. eapply Forall2_imp; [|exact Z]. intros fld y ([k [f t]] & [k' [f' t']] & Ia & Ib & (Ek & _) & (j & Ec) & (j' & Ey)).
      cbn [fst] in Ek. subst k'. apply (Permutation_in _ (Permutation_sym Pu)) in Ib.
      destruct (Step j j' k f t f' t' Ia Ib fld Ec) as (y' & Ey' & Rel). rewrite Ey in Ey'. injection Ey' as <-. exact Rel.
  Qed.

  Theorem type_ir_good : forall t t', teq t t' -> ir_good1 t t'.
  Proof.
    induction 1 as [n|n lk a b Na Nb Ka Nu Ku Kf Kt IH]; intros f p p' ty H.
    - destruct (fdef_is_complex (ft_def (sf_type f))) eqn:C.
      + exfalso. cbn [type_ir] in H. destruct (ft_def (sf_type f)); discriminate.
      + rewrite type_ir_simple in * by auto. destruct (ft_def (sf_type f)); inversion H; subst; eexists; split; try reflexivity; constructor.
    - destruct (fdef_is_complex (ft_def (sf_type f))) eqn:C.
      2:{ rewrite type_ir_simple in * by auto. destruct (ft_def (sf_type f)); inversion H; subst; eexists; split; try reflexivity; constructor. }
      assert (NI : ft_def (sf_type f) <> FDInputObject). { intros E. cbn [type_ir] in H. rewrite E in H. discriminate. }
      rewrite type_ir_cplx in * by auto.
      assert (Ro : orel a b). { assert (X : teq (FCplx n lk a) (FCplx n lk b)) by (constructor; auto). apply teq_orel in X. apply X. }
      pose proof Ro as (_ & _ & Rk).
      match type of H with context [collect_res ?x] => destruct (collect_res x) as [cs|] eqn:Ec; [|discriminate] end. injection H as <-.
      destruct (loop_inv o O _ _ _ _ Ec) as (cs1 & P1 & F1).
      destruct (mrel_pairs urel a b Ro) as (b1 & Pb & Fb).
      assert (Step : forall j j' T u u', In (T, u) a -> In (T, u') b -> forall x, conv_obj o p (j, (T, u)) = Ok x ->
        exists y, conv_obj o' p' (j', (T, u')) = Ok y /\ irc_name x = irc_name y /\ ieq_fs (irc_fields x) (irc_fields y)).
      { intros j j' T u u' I I' x E. apply In_aget in I; auto. apply In_aget in I'; auto.
        pose proof (Rk T) as R0. rewrite I, I' in R0. cbn [conv_obj] in *.
        match type of E with context [collect_res ?x] => destruct (collect_res x) as [fs|] eqn:Ef; [|discriminate] end. injection E as <-.
        destruct (fields_good j p j' p' u u' fs R0) as (fs' & Ef' & Rf); auto. { intros k f0 t0 f0' t0' E1 E2. eapply IH; eauto. }
        match goal with |- context [collect_res ?z] => replace (collect_res z) with (@Ok ir_error _ fs') by (symmetry; exact Ef') end.
        eexists. split; [reflexivity|]. auto. }
      destruct (loop_make o' O' p' (conv_obj o' p') b (fun e' y => exists j', conv_obj o' p' (j', e') = Ok y)) as (cs' & E' & cs1' & P1' & F1').
      { intros [T u'] I' j'. assert (Et : aget T b = Some u') by (apply In_aget; auto). pose proof (Rk T) as R0. rewrite Et in R0.
        destruct (aget T a) as [u|] eqn:E; [|contradiction]. apply aget_In in E.
        destruct (Forall2_in_l _ _ _ _ F1 E) as (x & _ & j & Ex). destruct (Step j j' T u u' E I' x Ex) as (y & Ey & _). eauto. }
      match goal with |- context [collect_res ?z] => replace (collect_res z) with (@Ok ir_error _ cs') by (symmetry; exact E') end.
      eexists. split; [reflexivity|]. constructor.
      destruct (Forall2_perm _ _ _ Pb _ F1') as (cs2' & P2' & F2').
      pose proof (Forall2_comp _ _ _ _ _ _ _ Fb F1 F2') as Z.
      assert (Z' : Forall2 (fun x y => irc_name x = irc_name y /\ ieq_fs (irc_fields x) (irc_fields y)) cs1 cs2').
      { eapply Forall2_imp; [|exact Z]. intros x y ([T u] & [T' u'] & Ia & Ib & (Ek & _) & (j & Ex) & (j' & Ey)).
        cbn [fst] in Ek. subst T'. apply (Permutation_in _ (Permutation_sym Pb)) in Ib.
        destruct (Step j j' T u u' Ia Ib x Ex) as (y' & Ey' & Rel). rewrite Ey in Ey'. injection Ey' as <-. exact Rel. }
      assert (Nm : List.map irc_name cs1 = akeys a).
      { symmetry. unfold akeys. apply Forall2_map_eq. eapply Forall2_imp; [|exact F1]. intros [T u] x (j & Ex). cbn [conv_obj fst] in *.
        match type of Ex with context [collect_res ?x] => destruct (collect_res x); [|discriminate] end. injection Ex as <-. reflexivity. }
      assert (N1 : NoDup (List.map irc_name cs1)) by (rewrite Nm; auto).
      assert (N1' : NoDup (List.map irc_name cs2')).
      { replace (List.map irc_name cs2') with (List.map irc_name cs1); auto. apply Forall2_map_eq. eapply Forall2_imp; [|exact Z']. intros x y [E _]. exact E. }
      assert (Es : sort_by irc_name cs = sort_by irc_name cs1).
      { symmetry. apply sort_by_perm_eq; auto. apply Permutation_sym. auto. }
      assert (Es' : sort_by irc_name cs' = sort_by irc_name cs2').
      { symmetry. apply sort_by_perm_eq; auto. apply Permutation_sym. eapply perm_trans; eauto. }
      rewrite Es, Es'. apply cs_of. apply sort_by_Forall2; auto. intros x y [E _]. exact E.
  Qed.
End Conv.
Print Assumptions type_ir_good.
